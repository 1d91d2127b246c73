{"id": "C01", "title": "Elements surrounding a point are listed exactly", "statement": "After compute_topological, for every point p the slice esup[esup_p(p)..esup_p(p+1)) lists exactly the cells that have p as a node (once per occurrence), slices tile the array without gaps, and no array access is out of bounds.", "quantifier": "every mesh whose connectivity refers to existing points (any number of points, cells, cell sizes)", "why_tests_cant": "a counting-sort with in-place cursor bumping and shifting back must be right for every incidence pattern", "anchors": ["src/mesh/mesh.cpp: UMesh::compute_elementsSurroundingPoints"]}
{"id": "C02", "title": "Cell neighbours are exact and symmetric", "statement": "For every conforming mesh, the neighbour reported across local face f of cell i is the unique other cell that owns the same pair of points, -1 if there is none, and j is reported as neighbour of i exactly when i is reported as neighbour of j.", "quantifier": "every mesh whose cells have distinct nodes and in which each point pair is an edge of at most two cells", "why_tests_cant": "depends on the whole mesh; the marking array must be clean after every face, for all meshes", "anchors": ["src/mesh/mesh.cpp: UMesh::compute_elementsSurroundingElements"]}
{"id": "C03", "title": "Every internal face appears exactly once", "statement": "The face list consists of the physical boundary faces, then one entry for every unordered pair of adjacent cells' shared edge with left index < right index, then the connectivity faces; nothing else, the ranges are contiguous and the total equals the sum of the three counts.", "quantifier": "every conforming mesh with any numbers of cells, boundary faces and connectivity faces", "why_tests_cant": "a double count or a missed face breaks conservation only on particular meshes", "anchors": ["src/mesh/mesh.cpp: UMesh::compute_faceConnectivity", "src/mesh/mesh.hpp: gFaceStart..gDomFaceEnd"]}
{"id": "C04", "title": "Cell-to-face map is the inverse of the face list", "statement": "elemface(cell, local face) names the entry of the face list whose left or right cell is that cell and whose two points are the two points of that local face.", "quantifier": "every conforming mesh, every cell and local face", "why_tests_cant": "needs consistent orientation between neighbouring cells on all meshes", "anchors": ["src/mesh/mesh.cpp: UMesh::compute_faceConnectivity (elemface)"]}
{"id": "C05", "title": "Boundary faces find their host cell and are oriented with it", "statement": "If each boundary face is an edge of exactly one cell, the host search returns that cell and that local face, and after correctBoundaryFaceOrientation the face's nodes are in the cyclic order of its host cell; running it again changes nothing. A boundary face contained in no cell leads to reading element 0 of an empty vector.", "quantifier": "every mesh and every set of boundary faces", "why_tests_cant": "host search uses sorted set intersections of data-dependent lists", "anchors": ["src/mesh/mesh.cpp: UMesh::compute_phyBFaceNeighboringElements, correctBoundaryFaceOrientation, getFaceEIndex"]}
{"id": "C06", "title": "Face normals are unit vectors of the right length and direction", "statement": "For every face with distinct end points the stored normal has length one, is perpendicular to the face, points to the right of the directed edge, and normal times length is the rotated edge vector.", "quantifier": "all face end points", "why_tests_cant": "an identity over all real coordinates", "anchors": ["src/mesh/mesh.cpp: UMesh::compute_face_data"]}
{"id": "C07", "title": "Every cell is closed", "statement": "For every cell the length-weighted outward normals of its faces sum to zero, with sign + where the cell is the left and - where it is the right cell of the face.", "quantifier": "every polygon/cell, any number of nodes and any coordinates", "why_tests_cant": "an identity over all meshes; it is what makes free stream a steady solution", "anchors": ["src/mesh/mesh.cpp: UMesh::compute_face_data, compute_faceConnectivity"]}
{"id": "C08", "title": "Cell areas are the polygon areas", "statement": "The stored area equals the shoelace area of the cell's polygon; it is positive for counter-clockwise triangles and convex quadrilaterals, is invariant under translation and cyclic renumbering, and areas of two cells glued along an edge add up.", "quantifier": "all triangles and quadrilaterals", "why_tests_cant": "identity over all real coordinates", "anchors": ["src/mesh/mesh.cpp: UMesh::compute_areas"]}
{"id": "C09", "title": "Renumbering cells only renumbers them", "statement": "After reorder_cells(p), cell i has exactly the nodes the old cell p[i] had, so for a permutation p nothing is lost or duplicated; region tags are documented as being reordered too but keep their old places.", "quantifier": "every mesh and every permutation of its cells", "why_tests_cant": "the aliasing copy has to be right for every permutation", "anchors": ["src/mesh/mesh.cpp: UMesh::reorder_cells"]}
{"id": "C10", "title": "Level scheduling never couples two cells in one level", "statement": "The levels returned are a partition of 0..nelem into consecutive non-empty intervals, and no two cells in the same level are neighbours; every level boundary is forced.", "quantifier": "every mesh with at least one cell", "why_tests_cant": "correctness of parallel sweeps depends on every pair in every level", "anchors": ["src/mesh/ameshutils.cpp: levelSchedule"]}
{"id": "C11", "title": "Line ordering is a permutation made of lines of neighbouring cells", "statement": "The hybrid line/point ordering visits every cell exactly once; no cell belongs to two lines and consecutive cells of a line are face neighbours. A line starts at a boundary cell, goes on to the strongest free neighbour whose weight exceeds the threshold times the smallest weight of the cell, and stops only where no such neighbour is left or the best one has none itself; the lines do not depend on the contents of uninitialised memory.", "quantifier": "every mesh, every anisotropy field and threshold", "why_tests_cant": "greedy growth from both ends must not revisit cells, for all neighbour graphs", "anchors": ["src/mesh/meshordering.cpp: findLines, createLinePointGraphVertices, getHybridLineOrdering, lineReorder"]}
{"id": "C12", "title": "Periodic pairing is an involution", "statement": "After compute_periodic_map every paired face has as its ghost the interior cell of its partner and the partner has this face's interior cell; if face centres are matched two by two no face is paired twice.", "quantifier": "every set of boundary faces and every set of centre coordinates", "why_tests_cant": "a tolerance-matched greedy pairing must be consistent for all inputs", "anchors": ["src/mesh/mesh.cpp: UMesh::compute_periodic_map"]}
{"id": "C13", "title": "Point neighbours are exact", "statement": "psup lists for every point exactly the points connected to it by an edge of some cell, each once.", "quantifier": "every mesh of triangles and quadrilaterals", "why_tests_cant": "two passes must agree on every mesh", "anchors": ["src/mesh/mesh.cpp: UMesh::compute_pointsSurroundingPoints"]}
{"id": "C14", "title": "Trivial partition covers all cells and leaves no rank empty", "statement": "Every cell gets a rank in [0,nranks); ranks are non-decreasing in cell index; every rank gets at least one cell when nranks <= nelem; the constructor refuses nelem < nranks.", "quantifier": "all cell counts and rank counts", "why_tests_cant": "arithmetic with a remainder, over all sizes", "anchors": ["src/mesh/meshpartitioning.cpp: TrivialReplicatedGlobalMeshPartitioner::compute_partition, ReplicatedGlobalMeshPartitioner"]}
{"id": "C15", "title": "Restriction to a subdomain preserves geometry and connectivity", "statement": "In the local mesh, cell l is the global cell it is recorded to be; the coordinates of its local nodes are the coordinates of that global cell's nodes in the same order; global-to-local numbering is injective; union over ranks of recorded global cells is all cells, each once.", "quantifier": "every global mesh and every assignment of cells to ranks", "why_tests_cant": "all meshes and all partitions", "anchors": ["src/mesh/meshpartitioning.cpp: extractInpoel, extractPointCoords, restrictMeshToPartitions"]}
{"id": "C16", "title": "Every physical boundary face ends up on exactly one rank", "statement": "Each global boundary face is kept, with its tags, by the rank owning its host cell and by no other rank.", "quantifier": "every mesh with properly hosted boundary faces and every partition", "why_tests_cant": "all meshes and all partitions", "anchors": ["src/mesh/meshpartitioning.cpp: extractbfaces"]}
{"id": "C17", "title": "Partition interfaces are all found as connectivity faces", "statement": "A face of a local cell with no local neighbour is recorded as connectivity face if and only if at least one of its points is not on the physical boundary; hence a partition interface whose both points are physical boundary points is silently dropped.", "quantifier": "every local mesh", "why_tests_cant": "the omission only shows for special cuts", "anchors": ["src/mesh/meshpartitioning.cpp: getConnectivityFaceEIndices, markLocalPhysicalBoundaryPoints"]}
{"id": "C18", "title": "Cell adjacency graph handed to the partitioner is exact", "statement": "The CSR adjacency lists contain for every cell exactly its real neighbours, and the graph is symmetric with no self loops.", "quantifier": "every mesh", "why_tests_cant": "all meshes", "anchors": ["src/mesh/meshpartitioning.cpp: getCellAdjLists"]}
{"id": "C19", "title": "Trace exchange delivers the neighbour's value on the same face", "statement": "After every rank has completed updateSharedFacesBegin/End, the right state on each connectivity face equals the left state the neighbouring rank had stored for the same global face.", "quantifier": "all numbers of ranks, all numberings of shared faces on both sides, all interleavings of sends and receives, all message contents", "why_tests_cant": "message passing order and index matching cannot be exhausted by tests", "anchors": ["src/linalg/tracevector.cpp: L2TraceVector::update_comm_pattern, updateSharedFacesBegin, updateSharedFacesEnd"]}
{"id": "C20", "title": "Trace exchange terminates and rounds do not mix", "statement": "From every reachable state of an exchange some rank can move until all are done, and in a sequence of exchanges each receive obtains the message of the same round.", "quantifier": "all schedules and any number of rounds", "why_tests_cant": "schedules", "anchors": ["src/linalg/tracevector.cpp: updateSharedFacesBegin/End"]}
{"id": "C21", "title": "Gmsh write/read round trip", "statement": "Reading back a mesh written by writeGmsh2 gives the same points, cells, boundary faces and boundary tags.", "quantifier": "every mesh of triangles and quadrilaterals with at least two boundary tags", "why_tests_cant": "all meshes", "anchors": ["src/mesh/mesh.cpp: UMesh::writeGmsh2", "src/mesh/meshreaders.cpp: readGmsh2"]}
{"id": "C22", "title": "Gmsh reader needs boundary records first", "statement": "If all boundary records precede all cell records the reader assigns each record to the right list with its own nodes and tags; if not, it stores cell records as boundary faces or vice versa.", "quantifier": "every list of element records", "why_tests_cant": "depends on file order", "anchors": ["src/mesh/meshreaders.cpp: readGmsh2"]}
{"id": "C23", "title": "Vector handlers always return the array they borrowed", "statement": "For every sequence of construction, setVec, getArray, restore and destruction the handlers never return an array they do not hold, getArray is non-null exactly while attached, nothing is borrowed after restore or destruction, and setVec while attached throws without changing anything. Copying a handler or a failing PETSc call breaks this.", "quantifier": "all operation sequences", "why_tests_cant": "histories", "anchors": ["src/linalg/petscutils.cpp: MutableVecHandler, ConstVecHandler, MutableGhostedVecHandler, ConstGhostedVecHandler"]}
{"id": "C24", "title": "Array and scan utilities", "statement": "Every program on Array2d objects (construct, copy, move, assign, resize, destroy, read, write, compare) behaves as a program on independent matrices, never touches storage it does not own and leaks nothing; row-major layout is a bijection; inclusive_scan returns all prefix sums; assigning an Array2d to itself loses its contents in release builds.", "quantifier": "all sizes and contents", "why_tests_cant": "all sizes", "anchors": ["src/utilities/aarray2d.hpp: Array2d", "src/utilities/helper_algorithms.hpp: inclusive_scan"]}
{"id": "C25", "title": "Conserved and primitive variables convert back and forth exactly", "statement": "getConservedFromPrimitive and getPrimitiveFromConserved are inverse of each other (also in place), and the same for density-velocity-temperature variables.", "quantifier": "all states with non-zero density, all gas parameters", "why_tests_cant": "real identities", "anchors": ["src/physics/aphysics_defs.hpp: getConservedFromPrimitive, getPrimitiveFromConserved, getPrimitive2FromConserved, getPrimitive2FromPrimitive"]}
{"id": "C26", "title": "Equation of state functions are mutually consistent", "statement": "Pressure, energy, density, temperature and sound speed functions invert each other; pressure is positive exactly when energy exceeds kinetic energy; sound speed squared is gamma p over rho.", "quantifier": "all states and gas parameters", "why_tests_cant": "real identities", "anchors": ["src/physics/aphysics_defs.hpp: getPressureFromConserved, getEnergyFromPressure, getEnergyFromTemperature, getDensityFromPressureTemperature, getTemperature, getSoundSpeed"]}
{"id": "C27", "title": "Free-stream state has the requested Mach number and direction", "statement": "For every angle of attack and Mach number, the free-stream state has density 1, unit velocity at that angle, pressure 1/(gamma M^2), temperature 1 and Mach number M.", "quantifier": "all angles, all M > 0, all gamma > 1", "why_tests_cant": "trigonometric identity over all angles", "anchors": ["src/physics/aphysics.cpp: compute_freestream_state", "src/mathutils.hpp: getNormalizedFreeStreamVector"]}
{"id": "C28", "title": "Analytical flux Jacobian is the derivative of the flux", "statement": "getJacobianDirectionalFluxWrtConserved returns the matrix of partial derivatives of the directional flux.", "quantifier": "all states with positive density, all directions, all gamma", "why_tests_cant": "derivative at every point", "anchors": ["src/physics/aphysics.cpp: getJacobianDirectionalFluxWrtConserved, getDirectionalFluxFromConserved"]}
{"id": "C29", "title": "Gradient conversions obey the chain rule", "statement": "The primitive gradients computed from conserved gradients are the derivatives of the primitive variables along any differentiable field of conserved states; likewise pressure and temperature gradients.", "quantifier": "all differentiable fields and all points", "why_tests_cant": "derivative at every point", "anchors": ["src/physics/aphysics_defs.hpp: getGradPressureFromConservedAndGradConserved, getGradPrimitive2FromConservedAndGradConserved, getGradTemperature"]}
{"id": "C30", "title": "Scalar Jacobians are derivatives", "statement": "Jacobians of pressure, temperature, sound speed and of the (rho,v,T) variables are the partial derivatives of the corresponding functions.", "quantifier": "all states with positive density (and pressure for the sound speed)", "why_tests_cant": "derivative at every point", "anchors": ["src/physics/aphysics_defs.hpp: getJacobianPressureWrtConserved, getJacobianTemperatureWrtConserved, getJacobianSoundSpeedWrtConserved", "src/physics/aphysics.cpp: getJacobianVarsWrtConserved, getJacobianPrimitive2WrtConserved"]}
{"id": "C31", "title": "Sutherland viscosity and its Jacobian", "statement": "Viscosity is positive and equals 1/Re at the reference temperature; the implemented Jacobian differs from the derivative (exponent -1.5 instead of 0.5) whenever temperature is not 1.", "quantifier": "all states with positive density and temperature", "why_tests_cant": "derivative at every point", "anchors": ["src/physics/aphysics_defs.hpp: getViscosityCoeffFromConserved, getJacobianSutherlandViscosityWrtConserved"]}
{"id": "C32", "title": "Pressure change estimate used for under-relaxation", "statement": "getDeltaPressureFromConserved is meant to return p(u+du)-p(u); it does not: it is wrong already for a pure x-momentum change and has the wrong sign of the kinetic term.", "quantifier": "all states and increments", "why_tests_cant": "counterexample plus exact characterisation over all inputs", "anchors": ["src/physics/aphysics_defs.hpp: getDeltaPressureFromConserved", "src/ode/nonlinearrelaxation.cpp: FlowSimpleUpdate::getLocalRelaxationFactor"]}
{"id": "C33", "title": "Viscous stress tensor is symmetric, Galilean invariant and objective", "statement": "The stress is symmetric, has zero trace (with 2D Stokes hypothesis of the code as documented: trace equals (2-4/3) mu div v), vanishes for rigid motion and depends linearly on velocity gradients and viscosity.", "quantifier": "all velocity gradients and viscosities", "why_tests_cant": "real identities", "anchors": ["src/physics/aphysics_defs.hpp: getStressTensor"]}
{"id": "C34", "title": "Every numerical flux is consistent", "statement": "With equal left and right states every available inviscid flux returns the analytical directional flux.", "quantifier": "all physical states and all unit normals, for each of LLF, Van Leer, AUSM, AUSM+, Roe, HLL, HLLC", "why_tests_cant": "branches on Mach number; all states", "anchors": ["src/spatial/anumericalflux.cpp: *Flux::get_flux"]}
{"id": "C35", "title": "Every numerical flux is conservative", "statement": "Exchanging the two states and reversing the normal negates the flux, so what leaves one cell enters the other even when the two sides are computed by different ranks.", "quantifier": "all pairs of physical states and all unit normals, for each flux", "why_tests_cant": "branches; all pairs of states", "anchors": ["src/spatial/anumericalflux.cpp: *Flux::get_flux"]}
{"id": "C36", "title": "Supersonic flow is fully upwinded", "statement": "If both states (and their average) move supersonically in the direction of the normal the flux is the analytical flux of the left state; if against it, of the right state.", "quantifier": "all supersonic pairs, for Van Leer, AUSM, HLL, HLLC, Roe", "why_tests_cant": "all pairs of states", "anchors": ["src/spatial/anumericalflux.cpp: *Flux::get_flux"]}
{"id": "C37", "title": "LLF and HLL signal speeds bound the physical wave speeds", "statement": "The LLF dissipation coefficient is at least |v.n|+c of both states; the HLL speeds satisfy sl <= v.n-c of the left state and of the Roe average, sr >= v.n+c of the right state and of the Roe average, and sl < sr, so the averaging denominators never vanish.", "quantifier": "all pairs of physical states", "why_tests_cant": "inequalities over all states", "anchors": ["src/spatial/anumericalflux.cpp: LocalLaxFriedrichsFlux::get_flux, HLLFlux::get_flux", "src/spatial/anumericalflux.hpp: getRoeAverages"]}
{"id": "C38", "title": "HLLC waves are ordered and star states are physical", "statement": "The contact speed lies strictly between the two signal speeds for every pair of physical states, so all divisions are safe and the star densities are positive.", "quantifier": "all pairs of physical states with gamma at least 5/4", "why_tests_cant": "inequality over all states", "anchors": ["src/spatial/anumericalflux.cpp: HLLCFlux::get_flux, getStarState"]}
{"id": "C39", "title": "Stationary contact discontinuities are preserved", "statement": "For two states at rest in normal direction with the same pressure and no normal velocity, HLLC returns zero mass and energy flux and pure pressure momentum flux whatever the density jump and shear; Roe's flux does not, because its entropy fix also acts on the contact wave.", "quantifier": "all density and tangential velocity jumps", "why_tests_cant": "all states", "anchors": ["src/spatial/anumericalflux.cpp: HLLCFlux::get_flux, RoeFlux::get_flux"]}
{"id": "C40", "title": "Roe averaging satisfies the Roe property", "statement": "The wave decomposition built from the averages reproduces the flux difference exactly: sum over waves of signed speed times strength times eigenvector equals F(ur)-F(ul).", "quantifier": "all pairs of physical states", "why_tests_cant": "algebraic identity with square roots", "anchors": ["src/spatial/anumericalflux.cpp: RoeFlux::get_flux", "src/spatial/anumericalflux.hpp: getRoeAverages"]}
{"id": "C41", "title": "Frozen-coefficient flux Jacobians", "statement": "The Jacobians returned for LLF and HLL are minus the derivative w.r.t. the left and plus the derivative w.r.t. the right state of the flux with dissipation coefficients held fixed.", "quantifier": "all pairs of physical states, all unit normals", "why_tests_cant": "derivative at every point", "anchors": ["src/spatial/anumericalflux.cpp: LocalLaxFriedrichsFlux::get_jacobian, HLLFlux::get_jacobian"]}
{"id": "C42", "title": "Exact flux Jacobians", "statement": "The Jacobians returned by AUSM and HLLC are exactly minus/plus the derivatives of the flux wherever the branch conditions are strict.", "quantifier": "all pairs of physical states off the branch boundaries", "why_tests_cant": "derivative at every point", "anchors": ["src/spatial/anumericalflux.cpp: AUSMFlux::get_jacobian, HLLCFlux::get_jacobian"]}
{"id": "C43", "title": "Advertised exact Jacobians that are not", "statement": "The 'exact' LLF Jacobian get_jacobian_2 is wrong whenever the density differs from one, and the Roe Jacobian uses the already modified eigenvalue when differentiating the entropy fix.", "quantifier": "all states (exact error term) with concrete witnesses", "why_tests_cant": "derivative at every point", "anchors": ["src/spatial/anumericalflux.cpp: LocalLaxFriedrichsFlux::get_jacobian_2, RoeFlux::get_jacobian"]}
{"id": "C44", "title": "Fluxes do not depend on the orientation of the axes", "statement": "Rotating or reflecting both states and the normal rotates/reflects the flux.", "quantifier": "all orthogonal transformations of the plane and all physical states, for each flux", "why_tests_cant": "all rotations", "anchors": ["src/spatial/anumericalflux.cpp: *Flux::get_flux"]}
{"id": "C45", "title": "Nothing passes through a slip wall", "statement": "With the slip-wall ghost state every inviscid flux has zero mass, energy and tangential momentum component.", "quantifier": "all physical states, all unit normals, each flux", "why_tests_cant": "all states", "anchors": ["src/spatial/abc.cpp: Slipwall::computeGhostState", "src/spatial/anumericalflux.cpp: *Flux::get_flux"]}
{"id": "C46", "title": "Boundary ghost-state Jacobians are derivatives", "statement": "For slip wall, adiabatic wall, far field, extrapolation and inflow/outflow (away from switching) the ghost state and Jacobian function returns the same ghost state as computeGhostState and its exact derivative.", "quantifier": "all physical interior states and unit normals", "why_tests_cant": "derivative at every point", "anchors": ["src/spatial/abc.cpp: computeGhostState, computeGhostStateAndJacobian"]}
{"id": "C47", "title": "Inflow/outflow ghost state", "statement": "Inflow gives the far-field state, supersonic outflow the interior state, subsonic outflow keeps density and momentum and imposes the free-stream pressure; the residual and the Jacobian version disagree when the normal Mach number is exactly one.", "quantifier": "all physical interior states", "why_tests_cant": "branches", "anchors": ["src/spatial/abc.cpp: InOutFlow::computeGhostState, InOutFlow::computeGhostStateAndJacobian"]}
{"id": "C48", "title": "Defective boundary conditions", "statement": "The general adiabatic wall reads the wall velocity one past its end; the total-condition inflow does not preserve the outgoing Riemann invariant it names and sets an outward velocity.", "quantifier": "all inputs", "why_tests_cant": "index and algebra for all inputs", "anchors": ["src/spatial/abc.cpp: Adiabaticwall::computeGhostState, InFlow::computeGhostState"]}
{"id": "C49", "title": "Wall ghost states impose the wall values on average", "statement": "At no-slip walls the average of interior and ghost velocity is the prescribed wall velocity and (adiabatic, wall at rest) the ghost has the interior temperature; at isothermal walls the average temperature is the wall temperature.", "quantifier": "all physical interior states, normals, wall velocities and temperatures", "why_tests_cant": "real identities", "anchors": ["src/spatial/abc.cpp: Adiabaticwall2D, Isothermalwall2D"]}
{"id": "C50", "title": "Viscous flux: Newtonian and Fourier, zero in uniform flow and conservative", "statement": "The viscous flux is that of a Newtonian, Fourier-conducting gas. It vanishes when all gradients vanish, is linear in the face gradient, and changes sign when the face is seen from the other side. At second order the gradients of velocity and temperature it uses equal the differences of the two cells' velocities and temperatures along the line of centres, and the mean of the two cell gradients across it.", "quantifier": "all states, gradients and normals", "why_tests_cant": "all inputs", "anchors": ["src/physics/viscousphysics.cpp: computeViscousFlux", "src/spatial/aspatial.cpp: getFaceGradient_modifiedAverage", "src/physics/viscousphysics.cpp: getPrimitive2StatesAndGradients"]}
{"id": "C51", "title": "Adiabatic wall conducts no heat", "statement": "At a stationary adiabatic wall the face temperature gradient along the line joining the centres is zero.", "quantifier": "all interior states", "why_tests_cant": "all inputs", "anchors": ["src/spatial/abc.cpp: Adiabaticwall2D::computeGhostState", "src/spatial/aspatial.cpp: getFaceGradient_modifiedAverage"]}
{"id": "C52", "title": "Viscous flux Jacobian", "statement": "With constant viscosity computeViscousFluxJacobian adds exactly minus/plus the derivative of the thin-layer viscous flux with respect to left/right conserved states.", "quantifier": "all physical states, geometries and normals", "why_tests_cant": "derivative at every point", "anchors": ["src/physics/viscousphysics.cpp: computeViscousFluxJacobian", "src/spatial/aspatial.cpp: getFaceGradientAndJacobian_thinLayer"]}
{"id": "C53", "title": "Least-squares gradients are exact for linear fields", "statement": "If cell and ghost values are those of a linear function the computed gradient is its gradient for every cell whose neighbour directions span the plane.", "quantifier": "all meshes and all linear functions", "why_tests_cant": "all stencils", "anchors": ["src/spatial/agradientschemes.cpp: WeightedLeastSquaresGradients"]}
{"id": "C54", "title": "Green-Gauss gradients of a constant vanish", "statement": "On closed cells, the gradient of a constant field is zero.", "quantifier": "all meshes and constants", "why_tests_cant": "all meshes", "anchors": ["src/spatial/agradientschemes.cpp: GreenGaussGradients"]}
{"id": "C55", "title": "Threaded accumulation is order independent", "statement": "Gradient, residual and time-step accumulation over faces give the same result for every order in which the atomic updates happen.", "quantifier": "all permutations of the atomic updates", "why_tests_cant": "schedules", "anchors": ["src/spatial/flow_spatial.cpp: compute_fluxes, compute_max_timestep", "src/spatial/agradientschemes.cpp"]}
{"id": "C56", "title": "Face gradient is consistent", "statement": "The modified-average face gradient has directional derivative (ur-ul)/d along the line of centres, is exact for linear fields, and is symmetric under exchange of sides.", "quantifier": "all inputs with distinct centres", "why_tests_cant": "real identities", "anchors": ["src/spatial/aspatial.cpp: Spatial::getFaceGradient_modifiedAverage, getFaceGradientAndJacobian_thinLayer"]}
{"id": "C57", "title": "Linear reconstruction is exact for linear fields", "statement": "With exact gradients, both sides of every face get the value of the linear function at the face centre.", "quantifier": "all linear fields and meshes", "why_tests_cant": "all meshes", "anchors": ["src/spatial/areconstruction.cpp: LinearUnlimitedReconstruction", "src/spatial/reconstruction_utils.hpp: linearExtrapolate"]}
{"id": "C58", "title": "Barth-Jespersen reconstruction creates no new extrema", "statement": "All face values of a cell lie between the minimum and maximum of the cell and its neighbours.", "quantifier": "all cells with any number of faces, all values and gradients", "why_tests_cant": "inequality over all inputs", "anchors": ["src/spatial/limitedlinearreconstruction.cpp: BarthJespersenLimiter"]}
{"id": "C59", "title": "Venkatakrishnan limiter lies in [0,1]", "statement": "The limiter factor is always between 0 and 1 and no division by zero occurs when K>0.", "quantifier": "all cells, values, gradients and K>0", "why_tests_cant": "inequality over all inputs", "anchors": ["src/spatial/limitedlinearreconstruction.cpp: VenkatakrishnanLimiter"]}
{"id": "C60", "title": "WENO gradient is a convex combination", "statement": "The limited gradient is a convex combination of the gradients of the cell and its neighbours, hence exact on linear fields.", "quantifier": "all cells and gradients", "why_tests_cant": "all stencils", "anchors": ["src/spatial/limitedlinearreconstruction.cpp: WENOReconstruction"]}
{"id": "C61", "title": "Van Albada MUSCL reconstruction", "statement": "The limiter lies in [0,1]; the reconstruction is mirror symmetric in the two sides and exact for linear fields at the midpoint.", "quantifier": "all inputs", "why_tests_cant": "inequality over all inputs", "anchors": ["src/spatial/musclreconstruction.cpp: MUSCLVanAlbada"]}
{"id": "C62", "title": "Limiters read outside the solution array at physical boundaries", "statement": "For every cell with a physical boundary face the Barth-Jespersen and Venkatakrishnan limiters index the solution array beyond its nelem+nconnface rows.", "quantifier": "all meshes with a boundary face", "why_tests_cant": "release builds do not check", "anchors": ["src/spatial/limitedlinearreconstruction.cpp: compute_face_values", "src/mesh/mesh.cpp: compute_faceConnectivity"]}
{"id": "C63", "title": "The scheme is globally conservative", "statement": "The sum of the residuals over all cells equals minus the sum of the boundary fluxes: contributions of internal faces cancel whatever the flux function.", "quantifier": "all meshes, all flux values", "why_tests_cant": "all meshes", "anchors": ["src/spatial/flow_spatial.cpp: FlowFV::compute_fluxes"]}
{"id": "C64", "title": "Partitioned runs are globally conservative", "statement": "Summed over all ranks, fluxes through connectivity faces computed twice cancel, for every conservative flux and consistent face data.", "quantifier": "all partitions and states", "why_tests_cant": "all partitions", "anchors": ["src/spatial/flow_spatial.cpp: FlowFV::compute_fluxes"]}
{"id": "C65", "title": "Free stream is preserved", "statement": "On every mesh of closed cells with far-field boundaries a uniform flow gives zero residual in every cell with every available flux.", "quantifier": "all meshes, all uniform physical states", "why_tests_cant": "all meshes", "anchors": ["src/spatial/flow_spatial.cpp: FlowFV::compute_residual"]}
{"id": "C66", "title": "Residuals do not depend on the partition", "statement": "Each cell's residual computed in its subdomain equals the one computed on the whole mesh, to first and second order (unlimited, WENO and Van Albada), and so do gradients, face states and time steps, if what ranks exchange comes from the owners.", "quantifier": "all meshes, partitions and states", "why_tests_cant": "all partitions", "anchors": ["src/spatial/flow_spatial.cpp: FlowFV::compute_residual"]}
{"id": "C67", "title": "Assembled Jacobian is the derivative of the residual", "statement": "If the face flux Jacobians are exact, the assembled block matrix is the derivative of the residual vector with respect to the cell states.", "quantifier": "all meshes, all differentiable flux functions", "why_tests_cant": "all meshes", "anchors": ["src/spatial/aspatial.cpp: Spatial::assemble_jacobian", "src/spatial/flow_spatial.cpp: compute_local_jacobian_interior, compute_local_jacobian_boundary"]}
{"id": "C68", "title": "Local time steps are positive and satisfy the CFL identity", "statement": "Each local time step is positive and equals area divided by the sum over the cell's faces of (|v.n|+c)*length (plus the viscous part).", "quantifier": "all meshes with positive areas and all physical states", "why_tests_cant": "all meshes", "anchors": ["src/spatial/flow_spatial.cpp: FlowFV::compute_max_timestep"]}
{"id": "C69", "title": "Matrix preallocation", "statement": "The diagonal preallocation suffices for every cell; the off-diagonal preallocation of one block per cell does not for a cell with two connectivity faces.", "quantifier": "all meshes and partitions", "why_tests_cant": "all partitions", "anchors": ["src/linalg/alinalg.cpp: setJacobianPreallocation"]}
{"id": "C70", "title": "Matrix-free Jacobian product", "statement": "For affine residuals the finite-difference product is exact, and it is linear; the loop that clears ghost residuals clears the wrong entries for more than one variable.", "quantifier": "all vectors, all affine residuals", "why_tests_cant": "all inputs", "anchors": ["src/linalg/alinalg.cpp: MatrixFreeSpatialJacobian::apply"]}
{"id": "C71", "title": "CFL ramps stay within bounds", "statement": "Both ramp functions always return a value within [min,max] of the configured CFL numbers and the residual ramp is monotone in the residual ratio.", "quantifier": "all histories of residuals", "why_tests_cant": "histories", "anchors": ["src/ode/aodesolver.cpp: linearRamp, expResidualRamp"]}
{"id": "C72", "title": "Steady solvers report convergence truthfully", "statement": "solve returns normally only if the last relative residual is at most the tolerance, does at most maxiter steps, and otherwise throws; reaching the tolerance exactly in the last permitted step is reported as failure.", "quantifier": "all residual histories", "why_tests_cant": "histories", "anchors": ["src/ode/aodesolver.cpp: SteadyForwardEulerSolver::solve, SteadyBackwardEulerSolver::solve"]}
{"id": "C73", "title": "Explicit pseudo-time update ignores the ramped CFL number", "statement": "Every forward Euler step uses the initial CFL number whatever CFL has been computed and reported.", "quantifier": "all histories", "why_tests_cant": "histories", "anchors": ["src/ode/aodesolver.cpp: SteadyForwardEulerSolver::solve"]}
{"id": "C74", "title": "TVD Runge-Kutta of any order is one backward-in-time Euler step", "statement": "For every residual function the order 2 and order 3 solvers produce the same step as order 1, because the stage residual is always evaluated at the old state, and the sign of the residual is opposite to that of the steady explicit solver.", "quantifier": "all residual functions and states", "why_tests_cant": "order of accuracy is not visible in single runs", "anchors": ["src/ode/aodesolver.cpp: TVDRKSolver::solve, initialize_TVDRK_Coeffs"]}
{"id": "C75", "title": "Under-relaxation factor is in [minfactor,1] and protects the density", "statement": "The factor is always within [minfactor,1]; the relaxed density stays positive whenever minfactor*|drho| < rho, and can become negative otherwise.", "quantifier": "all states and updates", "why_tests_cant": "all inputs", "anchors": ["src/ode/nonlinearrelaxation.cpp: FlowSimpleUpdate"]}
{"id": "C76", "title": "Point output averages", "statement": "Nodal values written to VTU are a convex combination of surrounding cell values - they are not: the divisor is accumulated once per variable so every value is a quarter of the area-weighted average.", "quantifier": "all meshes and solutions", "why_tests_cant": "all meshes", "anchors": ["src/spatial/aoutput.cpp: FlowOutput::postprocess_point", "src/spatial/diffusion.cpp: scalar_postprocess_point"]}
{"id": "C77", "title": "Surface coefficients", "statement": "Lift and pressure drag are the components of the same pressure force, vanish when pressure equals the free-stream pressure, are independent of how wall faces are distributed among ranks, and are not changed by adding a constant to the pressure on closed walls.", "quantifier": "all wall meshes and pressure distributions", "why_tests_cant": "all meshes and partitions", "anchors": ["src/spatial/flow_spatial.cpp: FlowFV_base::computeSurfaceData"]}
{"id": "C78", "title": "Boundary type names", "statement": "Every boundary type has exactly one name and vice versa; a configuration containing a periodic boundary always fails when the solver is created.", "quantifier": "all configurations", "why_tests_cant": "all configurations", "anchors": ["src/spatial/abctypemap.cpp: bcTypeMap", "src/spatial/abc.cpp: create_const_flowBCs"]}
{"id": "C79", "title": "Diffusion operator", "statement": "The scalar diffusion residual is conservative, vanishes for constants equal to the boundary value, and its assembled interior Jacobian equals the derivative of the thin-layer flux; the boundary block misses the factor two of the Dirichlet ghost state.", "quantifier": "all meshes and states", "why_tests_cant": "all meshes", "anchors": ["src/spatial/diffusion.cpp: DiffusionMA"]}
{"id": "C80", "title": "Steady forward Euler conserves totals", "statement": "For boundary-flux-free domains (all boundaries periodic or closed) with global time step, every explicit step preserves the total of every conserved variable.", "quantifier": "all meshes, states and numbers of steps", "why_tests_cant": "histories", "anchors": ["src/ode/aodesolver.cpp: SteadyForwardEulerSolver::solve", "src/spatial/flow_spatial.cpp: compute_fluxes"]}
{"id": "C81", "title": "Cell centres", "statement": "The centre of every cell is the average of its nodes, so any linear function evaluated at the centre is the mean of its nodal values.", "quantifier": "all meshes and coordinates", "why_tests_cant": "all meshes", "anchors": ["src/mesh/mesh.cpp: UMesh::compute_cell_centres"]}
{"id": "C82", "title": "Half-faces tile the cells", "statement": "Walking the face list and taking, for every face, its left side and (when the right cell is real) its right side visits every side of every cell exactly once, with opposite directions for the two cells of an interior face.", "quantifier": "all conforming meshes", "why_tests_cant": "all meshes", "anchors": ["src/mesh/mesh.cpp: UMesh::compute_faceConnectivity", "src/mesh/mesh.cpp: UMesh::compute_topological"]}
{"id": "C83", "title": "Graph of lines and points handed to PETSc", "statement": "The graph matrix built for ordering lines has an entry (v,w) exactly when v = w or some cell of vertex v is a face neighbour of some cell of vertex w; it is structurally symmetric, has a full diagonal, and all indices are in range.", "quantifier": "all meshes, anisotropies and thresholds", "why_tests_cant": "all meshes", "anchors": ["src/mesh/meshordering.cpp: createLinePointGraph", "src/mesh/meshordering.cpp: createLinePointGraphVertices"]}
{"id": "C84", "title": "Reordering a distributed mesh keeps its parallel bookkeeping", "statement": "After restriction and reordering, the recorded global number of a local cell is the number of that cell and every connectivity record names the interface edge. (Refuted: reorder_cells permutes only inpoel/nnode/nfael, so globalElemIndex and connface are stale.)", "quantifier": "all meshes, partitions and orderings", "why_tests_cant": "needs a parallel run with -mesh_reorder; errors appear as wrong neighbours, not crashes", "anchors": ["src/mesh/ameshutils.cpp: preprocessMesh, constructMesh", "src/mesh/mesh.cpp: UMesh::reorder_cells"]}
{"id": "C85", "title": "Boundary sections of the control file", "statement": "Parsing the boundary sections terminates; the result is exactly the consecutively numbered sections bc0, bc1, ... up to the first missing number, in order; sections after a gap are ignored silently; too few boundary values are accepted and later read out of range.", "quantifier": "all control files", "why_tests_cant": "all control files", "anchors": ["src/utilities/controlparser.cpp: parse_BC_options", "src/spatial/abc.cpp: create_const_flowBCs"]}
{"id": "C86", "title": "Spatial set-up never fails on a valid mesh", "statement": "Topology, metrics, cell centres, face centres and boundary ghost centres are computed without any out-of-range access; face centres are the edge midpoints and each boundary ghost centre is the point reflection of the adjacent cell centre in the face centre.", "quantifier": "all valid hybrid meshes and point coordinates", "why_tests_cant": "all meshes", "anchors": ["src/spatial/aspatial.cpp: Spatial constructor", "src/spatial/aspatial.cpp: compute_ghost_cell_coords_about_midpoint"]}
{"id": "C87", "title": "Unsteady solver on several ranks", "statement": "The explicit Runge-Kutta solver must use current neighbour values at rank interfaces and one common time step. (Refuted: ghost entries of the solution keep their initial values through the whole run, and each rank advances by the minimum time step of its own cells, so physical times of the ranks drift apart.)", "quantifier": "all numbers of stages and steps, all residuals, all ranks", "why_tests_cant": "the unsteady tests run on one rank; errors show as slow drift", "anchors": ["src/ode/aodesolver.cpp: TVDRKSolver::solve"]}
{"id": "C88", "title": "Implicit system is the linearised backward Euler step", "statement": "Adding the pseudo-time term adds area/(CFL*dt) to the diagonal of every own diagonal block and nothing else, the blocked and the scalar insertion variants agree, and with an exact linear solve the unrelaxed update satisfies area/(CFL dt)(u'-u) + J(u'-u) = r in every own cell.", "quantifier": "all meshes, global numberings, Jacobians, residuals, CFL numbers and steps", "why_tests_cant": "all systems", "anchors": ["src/ode/aodesolver.cpp: addPseudoTimeTerm, addPseudoTimeTerm_slow, SteadyBackwardEulerSolver::solve"]}
{"id": "C89", "title": "Rows of surface files", "statement": "The table written for a boundary marker has exactly one row for each boundary face with that marker, in mesh order, no row is left unwritten and none overruns; each row holds the midpoint of the face and the coefficients (walls) or velocity (other markers) of the cell that owns the face.", "quantifier": "all meshes, markers and solutions", "why_tests_cant": "the regression compares one file for one mesh", "anchors": ["src/spatial/aoutput.cpp: FlowOutput::exportSurfaceData", "src/spatial/flow_spatial.cpp: computeSurfaceData"]}
{"id": "C90", "title": "Entropy error", "statement": "The entropy error is the root of the area-weighted sum of squared relative deviations from the free-stream entropy 1/(gamma M^2) over the cells of all ranks; it is non-negative, zero exactly when every cell has free-stream entropy, and independent of the distribution of cells over ranks.", "quantifier": "all meshes, states, free streams and partitions", "why_tests_cant": "convergence tests look at a few grids on one rank", "anchors": ["src/spatial/aoutput.cpp: FlowOutput::compute_entropy_cell"]}
{"id": "C91", "title": "The SU2 reader", "statement": "Reading an SU2 file whose sections come in the order dimension, cells, points, markers, with triangles and quadrilaterals and at least one face per marker, gives exactly the cells, points, boundary faces and markers of the file, whatever comments stand around the numbers; writing that mesh in Gmsh format and reading it back gives the same mesh. Outside this form the reader gives no error of its own: it ignores section names, skips a line after an empty marker, loses its place at another cell type, and leaves the number of nodes per face unset when there is no marker.", "quantifier": "all numbers and kinds of cells, points and markers, all comments, all previous contents of memory", "why_tests_cant": "tests read a few sample files in one fixed layout", "anchors": ["src/mesh/meshreaders.cpp: readSU2", "src/mesh/mesh.cpp: writeGmsh2"]}
{"id": "C92", "title": "VTU files", "statement": "The VTU file written with cell data or point data describes the mesh it was given: every point with its coordinates and a zero third one, the connectivity of every cell in its own node order, end offsets that are the running sums of the cell sizes, the VTK type of each cell, and the rows of each scalar and vector field unchanged; data arrays with too few rows are read out of bounds. The mesh-only writer does so exactly when all cells have the same number of nodes and that number is not nine.", "quantifier": "all meshes and data arrays", "why_tests_cant": "no test reads VTU files; hybrid meshes differ from those in use", "anchors": ["src/spatial/aoutput.cpp: writeScalarsVectorToVtu_CellData, writeScalarsVectorToVtu_PointData, writeMeshToVtu"]}
{"id": "C93", "title": "Boundary point numbering", "statement": "compute_boundary_points numbers every point that lies on a boundary face exactly once, counts them correctly and gives each boundary face the numbers of its two points; on a boundary made of closed curves it records for every boundary point the one face that ends there and the one that begins there.", "quantifier": "all meshes with valid boundary faces; closed boundaries for the second part", "why_tests_cant": "depends on the order of faces and on repeated points; tests use a few meshes", "anchors": ["src/mesh/mesh.cpp: UMesh::compute_boundary_points"]}
{"id": "C94", "title": "Comparison of meshes and the one-rank check", "statement": "compareMeshes, given a second mesh of at least the sizes of the first, returns eight flags that are all true exactly when the two meshes have the same cells, points up to the tolerance, boundary faces and tags; a second mesh that is smaller is read out of bounds. On one rank the trivial partition and the restriction give back the whole mesh, and the debug check passes, provided every point belongs to a cell.", "quantifier": "all pairs of meshes; all conforming meshes and junk contents of new arrays for the one-rank part", "why_tests_cant": "the debug check runs on the meshes at hand, which have no unused points", "anchors": ["src/mesh/ameshutils.cpp: compareMeshes, constructMesh"]}
{"id": "C95", "title": "Control file to solver configuration", "statement": "parse_flow_controlfile accepts a control file exactly when the entries required by its flow type, time scheme, stepping type, starter and output lists are there and can be read; every option then holds the value of its entry, names may be written in any case, entries may come in any order, the boundary conditions are the numbered sections up to the first missing number, and a mesh file named on the command line replaces that of the file (which must still have one). The factories make the flux, gradient and reconstruction that the names ask for. The limiter parameter, and without an initialization section the starter's flag and settings, are not determined by the file.", "quantifier": "all property trees, command lines, translators from text to numbers and uninitialised contents of the options structure", "why_tests_cant": "tests read a few control files, all complete and correctly spelled, and see one content of uninitialised memory", "anchors": ["src/utilities/controlparser.cpp: parse_flow_controlfile, parse_BC_options, extract_spatial_physics_config, extract_spatial_numerics_config", "src/utilities/afactory.cpp: create_mutable_inviscidflux, create_mutable_gradientscheme, create_mutable_reconstruction, create_mutable_flowSpatialDiscretization"]}
{"id": "C96", "title": "Running a steady case", "statement": "SteadyFlowCase::execute runs the starter (if switched on) with the first-order discretization and its own settings and then the main solve from the state the starter leaves; not reaching the starter's tolerance is ignored. It returns normally exactly when the starter passes and the main solve converges, that is meets its tolerance in fewer than the permitted number of steps, and then leaves the state of the main solve; it throws Tolerance_error when the main solve does not converge, for whatever numerical reason. The history file has one line per step, numbered from one. run_output returns the functionals of the final state on the first listed wall, and the files describe that state, whether or not it has converged; the program's exit status is 0 in both cases. All PETSc objects, update schemes and solvers are released exactly if no solver throws. An empty list of output walls, or asking for a history that was not recorded, is undefined behaviour.", "quantifier": "all options, meshes, residual, Jacobian and linear-solver functions, initial states, ranks and communicator sizes", "why_tests_cant": "tests run converging cases with one wall and recorded history, and look at functionals rather than at what stays allocated or at the exit status of a failed run", "anchors": ["src/utilities/casesolvers.cpp: FlowCase::run, FlowCase::run_output, SteadyFlowCase::execute_starter, SteadyFlowCase::execute_main, SteadyFlowCase::execute, setupImplicitSolver", "src/fvens_steady.cpp: main"]}
{"id": "C97", "title": "A boundary section of the control file does what it says", "statement": "In an accepted control file the boundary with a given marker is governed by the last section with that marker among the consecutively numbered ones, and the state beyond the boundary is the one its type name stands for, with the boundary values in the documented order (wall velocity, then wall temperature; total pressure, then total temperature). The temperatures are in units of the free-stream temperature, not in kelvin as documented.", "quantifier": "all accepted boundary sections, markers, interior states and normals", "why_tests_cant": "all control files and states", "anchors": ["src/utilities/controlparser.cpp: parse_BC_options", "src/spatial/abc.cpp: create_const_flowBCs, computeGhostState", "doc/example-control-file.ctrl"]}
{"id": "C98", "title": "A case starts in the free stream and, if that satisfies the boundary conditions, stays there", "statement": "initializeSystemVector fills every cell and ghost cell of the state vector, whatever it contained, with the free stream that the control file describes (unit density and speed, the given angle, the pressure of the given Mach number), within bounds. If the mesh is in one piece with positive areas, every boundary face has a section for its marker, and the sections are far field, inflow/outflow, extrapolation or slip walls along the flow, then both discretizations (the starter's and the main one, first or second order, any of the fluxes) can be made, of the gas, flux, gradient, reconstruction and boundary conditions that the options name; their residual is exactly zero on that state, and the whole explicit run converges after one step with the state unchanged and one history line. The implicit run of the same case should do the same but is reported as failed: without the starter it throws Tolerance_error from execute, with the starter the exception Numerical_error leaves run_output.", "quantifier": "all meshes, control options of this kind, contents of uninitialised memory and work arrays, linear solvers that return zero for a zero right-hand side", "why_tests_cant": "tests run a few meshes and start from rounding-level residuals; they cannot show exact preservation for every mesh, flux, limiter and content of memory", "anchors": ["src/utilities/casesolvers.cpp: FlowCase::run, FlowCase::run_output, SteadyFlowCase::execute_starter, SteadyFlowCase::execute_main, initializeSystemVector", "src/utilities/afactory.cpp: create_const_flowSpatialDiscretization", "src/spatial/flow_spatial.cpp: FlowFV constructor, compute_residual", "src/ode/aodesolver.cpp: SteadyForwardEulerSolver::solve, SteadyBackwardEulerSolver::solve"]}
{"id": "C99", "title": "A case runs on the mesh of the file, in the cell order asked for, with tables that belong to that order", "statement": "On one process constructMesh returns, for every mesh file and every setting of -mesh_reorder and -mesh_anisotropy_threshold, either the exception that a missing threshold, an ordering name with other than two parts or an unknown ordering calls for, or a mesh whose cells are those of the file, node by node, in the order the option names: the file's order, the lines (grown by the inverse distance of cell centres) followed by the other cells, lines and cells in PETSc's ordering of their graph, or PETSc's ordering of the cells' graph, of which only the first 29 characters of the name count. Points of no cell are dropped, coordinates, boundary faces and their markers are kept, and faces, neighbours, areas and normals are those of the final order, so that every discretization can be built on it. On several processes the same holds of each part when no reordering or 'natural' is asked for; with any ordering of PETSc it should hold but the assembly reads past the end of a vector that has no ghost entries.", "quantifier": "all meshes of triangles and quadrangles, options, PETSc orderings that return permutations, contents of uninitialised memory, numbers of processes", "why_tests_cant": "tests compare a few orderings on a few meshes; they cannot show that no table of the old order survives for every mesh, ordering and content of memory", "anchors": ["src/mesh/ameshutils.cpp: constructMesh, preprocessMesh, reorderMeshPetsc", "src/mesh/meshordering.cpp: lineReorder, hybridLineReorder, getPetscOrdering", "src/mesh/mesh.cpp: reorder_cells, compute_topological, compute_areas, compute_face_data"]}
{"id": "C100", "title": "The order of the cells does not change the result of an explicit run", "statement": "Two orders of the cells of one mesh give the same residual and the same time step in every cell for the same states. An explicit run started from the free stream (with or without the first-order starter) therefore ends in the same way on both, after the same number of steps, with the same convergence history, and with the same state in every cell. In particular a run on one process ends with the same result whatever -mesh_reorder is (the file's order, lines, an ordering of PETSc, or both combined), provided the options are ones that constructMesh accepts.", "quantifier": "all meshes of triangles and quadrangles, pairs of orders, options, boundary conditions, fluxes, orders of accuracy (unlimited, Van Albada and WENO reconstruction), contents of uninitialised memory, explicit runs of any length in which the fluxes are evaluated at physical states", "why_tests_cant": "tests compare a few orderings on a few meshes to within a tolerance; renumbering flips faces between left and right cells and changes the order of every loop, which no finite set of cases covers", "anchors": ["src/spatial/flow_spatial.cpp: compute_residual, compute_max_timestep", "src/ode/aodesolver.cpp: SteadyForwardEulerSolver::solve", "src/mesh/mesh.cpp: reorder_cells, compute_topological", "src/mesh/ameshutils.cpp: preprocessMesh, constructMesh", "src/utilities/casesolvers.cpp: execute_starter, execute_main"]}
{"id": "C101", "title": "Ghost entries of distributed vectors stand for the cells the connectivity faces name", "statement": "On the partition that every case uses, block i of a ghosted vector is cell i of the mesh, on the process that holds the cell; the ghost blocks of a process are the blocks of the neighbouring cells its connectivity faces name; and VecGhostUpdate brings each ghost cell the value of exactly that cell and changes no other entry. For a partition whose parts are not ranges of consecutive cells this should hold as well but does not: element numbers of the mesh are passed to PETSc as block numbers, and ghost cells receive the values of other cells.", "quantifier": "all meshes, numbers of processes, values of the vector, contents of uninitialised memory", "why_tests_cant": "tests run a few meshes on a few processes; the two numberings agree by accident of the partition, which is what has to be shown for every mesh and number of processes", "anchors": ["src/linalg/alinalg.cpp: createGhostedSystemVector", "src/mesh/mesh.cpp: getConnectivityGlobalIndices", "src/mesh/meshpartitioning.cpp: TrivialReplicatedGlobalMeshPartitioner::compute_partition, restrictMeshToPartitions"]}
{"id": "C102", "title": "An explicit run gives the same result on any number of processes", "statement": "One evaluation of the residual and the time steps by several processes, with its exchanges of gradients and face states, gives every cell the values that one process computes for it. An explicit run started from the free stream (with or without the first-order starter) therefore never has one process waiting in an exchange for another that has left the loop; on every process it ends in the way the run on one process ends, after the same number of steps, with the same convergence history, and every cell and every ghost cell has the same final state.", "quantifier": "all meshes of triangles and quadrangles whose interfaces have an end off the process's own boundary, numbers of processes, options, boundary conditions, fluxes, gradients, unlimited, Van Albada and WENO reconstruction, contents of uninitialised memory, explicit runs of any length in which the fluxes are evaluated at physical states", "why_tests_cant": "tests compare runs on a few numbers of processes to within a tolerance; agreement of all processes on when to stop and of all values after any number of steps is a statement about every execution", "anchors": ["src/spatial/flow_spatial.cpp: compute_residual, compute_max_timestep", "src/ode/aodesolver.cpp: SteadyForwardEulerSolver::solve", "src/linalg/tracevector.cpp: updateSharedFacesBegin, updateSharedFacesEnd", "src/utilities/casesolvers.cpp: execute_starter, execute_main"]}
{"id": "C103", "title": "The implicit matrix does not depend on the partition, nor on the side from which a face is seen", "statement": "The matrix blocks that all processes add to the Jacobian of a distributed case, numbered by the rows and columns the code uses for own and ghost cells, make up exactly the matrix that one process assembles on the whole mesh for the same state, block by block. Equivalently, for every flux with a Jacobian the derivatives at a face are exchanged when its two sides are exchanged and the normal is turned round, except where the flux switches formula on the sign of a speed that is zero while the states differ: there the AUSM Jacobian, for one, depends on the side.", "quantifier": "all meshes, partitions over any number of processes, fluxes with a Jacobian, inviscid and viscous flow, boundary conditions with a Jacobian, physical states without a zero switching speed between different states, starting contents of the matrix", "why_tests_cant": "a solver run with a slightly inconsistent Jacobian still converges, only the number of iterations changes; tests check Jacobians of a few states on one process", "anchors": ["src/spatial/aspatial.cpp: Spatial::assemble_jacobian", "src/physics/anumericalflux.cpp: get_jacobian", "src/spatial/flow_spatial.cpp: compute_local_jacobian_interior"]}
{"id": "C104", "title": "The reported functionals do not depend on the number of processes", "statement": "At the end of a case, the entropy error, the lift coefficient and the pressure and skin-friction drag coefficients that the processes of a distributed run report are those that one process computes on the whole mesh from the same state: the components across and along the wind of the pressure force on the faces with the marker and minus the component of the shear force along the wind, over the area of these faces; together with C102, an explicit run reports the same functionals on any number of processes. The mesh-size parameter reported beside them should be the same too but is not: it is computed from the number of cells of the process. The surface integration should also need no more than the mesh, but it writes its results into an array with one row per cell of the process, so a process with more faces on an output wall than cells writes outside it.", "quantifier": "all meshes, numbers of processes, physical states, fluxes, gradients, output walls with at least one face, contents of uninitialised memory", "why_tests_cant": "tests print the functionals of a few runs and compare to within a tolerance; the agreement of sums over processes with sums over the mesh, each from gradients completed with exchanged values, is a statement about every mesh and partition", "anchors": ["src/utilities/casesolvers.cpp: FlowCase::run_output", "src/spatial/flow_spatial.cpp: computeSurfaceData, compute_entropy_cell, getGradients"]}
{"id": "C105", "title": "An implicit run does not depend on the number of processes, given the linear solver", "statement": "An implicit case started from the free stream gives on several processes what it gives on one, with any linear solver whose result is determined by the linear system (matrix, right-hand side, time terms, state): all processes leave the loop together, after the same number of steps, with the same end (converged or the same exception), the same history of residual norms and CFL numbers and the same count of linear iterations, and every cell and every ghost cell has the same final state. The states passed through must be physical, and faces on which the Jacobian flux switches formula must not lie between different states.", "quantifier": "all meshes with visible interfaces, numbers of processes, options with the implicit time scheme, fluxes with a Jacobian, gradients and limiters of C102, linear solvers as described, relaxations, contents of uninitialised memory", "why_tests_cant": "tests run few cases on few processes and compare residuals to a tolerance; that assembly, pseudo-time terms, update and exchange agree in every step is a statement about every mesh, partition and step", "anchors": ["src/ode/aodesolver.cpp: SteadyBackwardEulerSolver::solve, addPseudoTimeTerm", "src/utilities/casesolvers.cpp: SteadyFlowCase::execute_main, execute_starter", "src/spatial/aspatial.cpp: assemble_jacobian"]}
{"id": "C106", "title": "The order of the cells does not change what an implicit run computes, given the linear solver", "statement": "An implicit case started from the free stream on one process gives the same result in whatever order the cells of the mesh are, and so for every value of -mesh_reorder with which the mesh is made: the same end (converged or the same exception), the same number of steps and history, and the same final state in every cell of the file, provided that permuting the unknowns of a linear system permutes what the linear solver returns (true of exact solutions and of Jacobi sweeps, not of incomplete factorizations). In particular block (i, j) of the assembled matrix belongs to the same pair of cells in both orders.", "quantifier": "all mesh files, pairs of -mesh_reorder options, orderings registered with PETSc, implicit options, fluxes with a Jacobian, linear solvers as described, relaxations, contents of uninitialised memory", "why_tests_cant": "tests compare few meshes in one or two orders up to a tolerance and cannot separate an order-dependent preconditioner from an order-dependent assembly", "anchors": ["src/mesh/meshordering.cpp: preprocessMesh, reorderMesh", "src/ode/aodesolver.cpp: SteadyBackwardEulerSolver::solve", "src/spatial/aspatial.cpp: assemble_jacobian"]}
{"id": "C107", "title": "Searching a tree of solvers for a preconditioner", "statement": "getPC(ksp, type, &pc) finds in the tree of nested solvers below ksp a preconditioner of the given type whenever there is one outside preconditioners of that type, and reports an error when the search meets a block preconditioner without exactly one subdomain on the process. Which one: through one-solver preconditioners the only one; in multigrid that of the coarse level, otherwise that of the finest level that has one. It is documented to return the first occurrence, which holds only where no two finer levels of a multigrid have the type (or the coarse one has it). When there is none the call succeeds and leaves *pcfound as it was, so an uninitialised pointer stays uninitialised.", "quantifier": "all trees of nested solvers, all types", "why_tests_cant": "the trees are made by run-time options and of any depth; the function is not called by any test", "anchors": ["src/linalg/alinalg.cpp: getPC"]}
{"id": "C108", "title": "The steps in which the AMG interpolation is computed anew", "statement": "In an implicit solve PETSc is told in step k (counted from 1) to compute the AMG interpolation anew if k is among the first three numbers given with -amg_recompute_interpolation, and to reuse it in every other step; further numbers are without effect.", "quantifier": "all option values, all numbers of steps", "why_tests_cant": "tests observe neither the option nor the calls", "anchors": ["src/ode/aodesolver.cpp: SteadyBackwardEulerSolver::solve", "src/utilities/aoptionparser.cpp: parseOptionalPetscCmd_intArray"]}
{"id": "C109", "title": "The reported functionals do not depend on the order of the cells", "statement": "The mesh size, entropy error, lift, pressure drag and skin-friction drag that a case reports at its end do not depend on -mesh_reorder: on the two meshes made from one file with two values of the option, a state that is the same in every cell of the file is reported with exactly the same five values; so an explicit run reports the same values with any order of the cells, and so does an implicit run if its linear solver commutes with the order.", "quantifier": "all mesh files, pairs of -mesh_reorder values, physical states, fluxes, gradient schemes, output walls with at least one face and no more faces than the mesh has cells, contents of uninitialised memory", "why_tests_cant": "the regression cases are run with one order and compared with stored numbers to within a tolerance; that face-based sums and gradients are carried along exactly by every permutation of the cells is a statement about all meshes", "anchors": ["src/utilities/casesolvers.cpp: FlowCase::run_output", "src/spatial/flow_spatial.cpp: computeSurfaceData, compute_entropy_cell, getGradients", "src/mesh/ameshutils.cpp: constructMesh, reorderMeshPetsc"]}
{"id": "C110", "title": "Ghost cell centres reflected about the boundary faces", "statement": "compute_ghost_cell_coords_about_face stays in bounds and gives to every boundary face the mirror image, in the line through the face, of the centre of the cell behind it: the segment between the two is perpendicular to the face and bisected by its line; exactly if the normal is clear of the axes by more than A_SMALL_NUMBER or along one of them, otherwise to within 2e-12 times the distance of the centre from the face; there is only one mirror image, and rows of the array beyond the boundary faces are left alone.", "quantifier": "all meshes with distinct face ends, all cell centres, all arrays with a row per boundary face", "why_tests_cant": "no test calls the function, and its three branches with divisions by components of the normal need to be covered for every direction of a face", "anchors": ["src/spatial/aspatial.cpp: Spatial::compute_ghost_cell_coords_about_face"]}
{"id": "C111", "title": "Choice of the mesh reader and conversion of mesh files", "statement": "readMesh uses the SU2 reader for exactly the files whose name ends in .su2 (or is su2), whatever other dots the path has, and the Gmsh reader for all others; a missing file ends the program. convertformat to msh ends with 0 and writes a file that readMesh reads back as the same mesh (for an SU2 file with markers: its points, cells and marked faces); to vtu it ends with 0, and the file describes the mesh if and only if all cells have the same number of nodes, not nine; with another format it writes nothing and ends with -1; with fewer than three arguments it should end with a message.", "quantifier": "all file names, file systems, meshes, SU2 texts, argument lists, contents of uninitialised memory", "why_tests_cant": "no test runs the converter; that no path is dispatched wrongly and that no mesh changes on the way needs all strings and all meshes", "anchors": ["src/mesh/meshreaders.cpp: readMesh", "src/utilities/convertformat.cpp: main"]}
{"id": "C112", "title": "The position of the mesh in the plane does not matter", "statement": "If every point of the mesh (and every centre received from a neighbour) is moved by the same vector, cell, face and ghost centres move by that vector, areas, face normals and lengths are unchanged, and gradients of all schemes, face values of all reconstructions, residual, time steps, Jacobian matrix, whole explicit and implicit runs with their files and history, and the reported functionals are the same; in the surface output only the coordinates move. Where one of the two is undefined, so is the other.", "quantifier": "all valid meshes of triangles and quadrangles, all vectors, all control files, states, linear solvers determined by the system", "why_tests_cant": "tests run meshes at one position; an absolute coordinate used in place of a difference anywhere in the scheme can go unnoticed on a mesh near the origin", "anchors": ["src/spatial/aspatial.cpp: Spatial", "src/spatial/flow_spatial.cpp: compute_residual", "src/spatial/agradientschemes.cpp", "src/spatial/areconstruction.cpp", "src/spatial/limitedlinearreconstruction.cpp", "src/spatial/musclreconstruction.cpp", "src/mesh/mesh.cpp: compute_areas, compute_face_data, compute_cell_centres"]}
{"id": "C113", "title": "The unit of length does not matter to an explicit inviscid run", "statement": "If every point of the mesh is multiplied by k > 0, face normals stay, lengths are multiplied by k and areas by k^2; gradients of all schemes are divided by k, the face values of the linear, Barth-Jespersen and MUSCL reconstructions are unchanged (those of Venkatakrishnan's limiter if its constant is divided by k), the residual and the local time steps are multiplied by k, and explicit runs of the case driver, starter and main solve, take the same number of steps, end in the same way and leave the same states, with all residual norms multiplied by k^2 so that the relative residuals of the history agree. Where one of the two is undefined, so is the other. For the implicit solver this is false: the CFL number of its second step is computed from the ratio of 1 and the first residual norm.", "quantifier": "all valid meshes of triangles and quadrangles on one process, all k > 0, states, inviscid discretizations except WENO, solver settings", "why_tests_cant": "tests run each mesh in one unit of length; an area used in place of a length, or an absolute threshold, shows only on meshes of another size", "anchors": ["src/spatial/flow_spatial.cpp: compute_residual, compute_max_timestep", "src/spatial/agradientschemes.cpp", "src/spatial/areconstruction.cpp", "src/spatial/limitedlinearreconstruction.cpp", "src/spatial/musclreconstruction.cpp", "src/ode/aodesolver.cpp: SteadyForwardEulerSolver::solve, SteadyBackwardEulerSolver::solve", "src/mesh/mesh.cpp: compute_areas, compute_face_data"]}
{"id": "C114", "title": "The direction of the axes does not matter to an explicit inviscid run without limiter", "statement": "If the mesh is rotated about the origin by any angle and the angle of attack is increased by that angle, then normals and centres rotate and areas and lengths stay; the free stream, the initial state, the boundary conditions made from the control file and the gradients of all schemes rotate (derivatives and velocity components); for discretizations of first order, and of second order with the linear reconstruction, the residual is the rotated residual for every numerical flux and every boundary condition, the local time steps are the same, and the forward Euler solver takes the same steps with the same residual norms and the same outcome, leaving the rotated states, whatever the work arrays held. Where one of the two is undefined, so is the other. For MUSCL this is false: its limiter acts on each velocity component by itself.", "quantifier": "all valid meshes of triangles and quadrangles on one process, all angles, states, fluxes, boundary conditions, gradient schemes, solver settings, contents of the work arrays", "why_tests_cant": "tests use meshes in one orientation, mostly with walls and flow along the axes, where an exchange of components or a sign error in one direction can cancel", "anchors": ["src/spatial/flow_spatial.cpp: compute_residual, compute_max_timestep", "src/spatial/abc.cpp: computeGhostState", "src/spatial/anumericalflux.cpp: get_flux", "src/spatial/agradientschemes.cpp", "src/spatial/areconstruction.cpp: LinearUnlimitedReconstruction", "src/spatial/musclreconstruction.cpp", "src/physics/aphysics.cpp: compute_freestream_state", "src/ode/aodesolver.cpp: SteadyForwardEulerSolver::solve"]}

{"id": "C01", "title": "Internal interface fluxes conserve mass for every wet/dry combination", "statement": "In the RKDG shallow-water solver, the mass flux an internal interface hands to its two elements cancels at every pair of matching Gauss points (what leaves one element enters the other), whatever the wet/dry flags of the two elements; when both elements are wet, all three flux components cancel.", "quantifier": "for all states, bathymetries with positive depths on both sides, unit normals, gravity, wet/dry flags and any number of Gauss points (Cartesian coordinates, i.e. spherical factor 1)", "why_tests_cant": "four wet/dry branches with a floating threshold, continuous state space and arbitrary number of Gauss points: a test samples a handful of states", "anchors": ["source/problem/SWE/discretization_RKDG/interface_specializations/rkdg_swe_is_internal.hpp: Internal::ComputeFlux", "source/problem/SWE/discretization_RKDG/numerical_fluxes/rkdg_swe_LLF_flux.hpp: LLF_flux", "source/problem/SWE/discretization_RKDG/boundary_conditions/rkdg_swe_bc_land.hpp: Land::ComputeFlux"]}
{"id": "C02", "title": "The numerical flux is consistent and independent of which side is called interior", "statement": "With the spherical factor equal to one, the numerical flux is the mean of the physical normal fluxes of the two sides plus half the larger signal speed times the jump; hence two equal states give the physical flux, exchanging the sides and reversing the normal negates the flux, and still water flows towards the lower elevation. With a spherical factor other than one the flux is not consistent with either normal flux.", "quantifier": "for all states with nonzero depth, all normals, bathymetry and gravity; spherical factor 1 for the positive part, a witness with factor 2 for the violation", "why_tests_cant": "universal algebraic identity over a continuous state space with square roots and maxima", "anchors": ["source/problem/SWE/discretization_RKDG/numerical_fluxes/rkdg_swe_LLF_flux.hpp: LLF_flux", "source/problem/SWE/problem_flux/swe_flux.hpp: get_Fn"]}
{"id": "C03", "title": "Land boundaries are impermeable", "statement": "A land boundary condition produces zero mass flux and no tangential momentum flux through the boundary in RKDG and in EHDG; the reflected exterior state has the same depth, opposite normal discharge and the same tangential discharge.", "quantifier": "for all interior states with nonzero depth, all unit normals, any gravity and bathymetry, spherical factor 1", "why_tests_cant": "real-number identity over all states and orientations", "anchors": ["source/problem/SWE/discretization_RKDG/boundary_conditions/rkdg_swe_bc_land.hpp: Land::ComputeFlux", "source/problem/SWE/discretization_EHDG/boundary_conditions/ehdg_swe_bc_land.hpp: Land::ComputeNumericalFlux, Land::ComputeFlux"]}
{"id": "C04", "title": "Flux Jacobians are the derivatives of the fluxes", "statement": "Each entry of the Jacobian matrices used by the implicit solver is the partial derivative, with respect to surface elevation or discharge, of the corresponding component of the flux used by the solver.", "quantifier": "for all states with positive depth, all bathymetries, normals and gravity", "why_tests_cant": "differentiability is a limit statement; finite differences in a test only approximate it at sample points", "anchors": ["source/problem/SWE/problem_flux/swe_flux.hpp: get_F, get_Fn, get_dF_dq, get_dFn_dq"]}
{"id": "C05", "title": "Characteristic decomposition of the normal Jacobian", "statement": "The left and right eigenvector matrices are mutually inverse, right * eigenvalues * left equals the normal flux Jacobian, the upwind and downwind parts sum to the Jacobian, their difference is its absolute value (same square, no negative eigenvalue), the upwind part has no negative and the downwind part no positive eigenvalue, and the provided derivative matrices are the derivatives of the Jacobian everywhere and of the parts wherever no eigenvalue is zero.", "quantifier": "for all states with positive depth, all unit normals, gravity positive", "why_tests_cant": "matrix identities over a continuous state space; derivative claims are limits", "anchors": ["source/problem/SWE/problem_jacobian/swe_jacobian.hpp: get_A, get_absA, get_Aplus, get_Aminus, L, absL, R, invR, dL_*, dR_*, dinvR_*"]}
{"id": "C06", "title": "Stabilization parameter bounds the wave speeds and its derivatives are exact", "statement": "The Lax-Friedrichs stabilization parameter is at least the absolute value of every eigenvalue of the normal Jacobian and equals one of them, and the three derivative routines return its partial derivatives wherever the normal velocity is nonzero. Where the normal velocity is zero the parameter is not differentiable, yet the routines return a value. The overload that takes a gravity argument ignores that argument.", "quantifier": "for all states with positive depth, all unit normals; derivative part for nonzero normal velocity", "why_tests_cant": "inequality and limit statements over continuous states", "anchors": ["source/problem/SWE/problem_stabilization_parameters/swe_stab_param_LF.hpp: get_tau_LF, get_dtau_dze_LF, get_dtau_dqx_LF, get_dtau_dqy_LF"]}
{"id": "C07", "title": "Wetting and drying treatment never loses water and never leaves negative depth", "statement": "The wetting/drying treatment of an element of order at least one always finishes. It leaves the cell-average elevation unchanged when the average depth is at least the threshold, and otherwise raises the average depth to the threshold, so water is created (the drafted 'unchanged' is violated). Afterwards every vertex depth is at least min(h_o, max(threshold, average depth)), a dry verdict has zero discharge and right-hand side, a wet verdict has a vertex deeper than h_o, a fully wet element is untouched, and a treated element keeps only linear modes. The initial verdict lifts dry vertices to h_o and so creates water too. Order zero writes out of range.", "quantifier": "for all element states, vertex bathymetries, previous flags, h_o >= 0 and thresholds >= 0, orders >= 1", "why_tests_cant": "many ordered case splits (sorting of vertices, redistribution) over continuous states", "anchors": ["source/problem/SWE/problem_postprocessor/swe_post_wet_dry.hpp: Problem::wetting_drying_kernel", "source/problem/SWE/problem_preprocessor/swe_pre_init_data.hpp: wet/dry initialisation"]}
{"id": "C08", "title": "Slope limiting keeps cell averages", "statement": "Applying the Cockburn-Shu slope limiter never changes cell averages; the new slopes are the minmod-limited characteristic slopes with the larger of positive and negative parts scaled down to balance; an element whose slopes are not limited keeps its state, higher modes included; globally linear data pass unchanged when neighbour averages come from the same linear function; dry elements and elements with dry neighbours are skipped; the limiter sees current neighbour data. Violated: next to a boundary linear data are limited, and the limiter can turn a positive vertex depth negative.", "quantifier": "for all element states, neighbour averages, geometry and limiter parameters M and nu (exactness needs nu >= 1 and positive depth)", "why_tests_cant": "minmod cascades with positive/negative part scaling over continuous data", "anchors": ["source/problem/SWE/problem_slope_limiter/swe_CS_slope_limiter.hpp: slope_limiting_kernel", "source/problem/SWE/problem_preprocessor/swe_pre_init_data.hpp: slope limiter initialisation"]}
{"id": "C09", "title": "Step, stage and clock bookkeeping of the explicit stepper", "statement": "After k increments the explicit Runge-Kutta stepper reports step k div s, stage k mod s and timestamp k for a scheme with s stages, and its clock at a step boundary is the number of steps times dt. The implicit stepper keeps the same counters with one stage per step and accepts exactly backward Euler (theta 0) and the trapezoidal rule (theta 1/2).", "quantifier": "for all numbers of increments k, all positive stage numbers s, all dt (exact arithmetic)", "why_tests_cant": "unbounded induction over the number of increments", "anchors": ["source/simulation/stepper/explicit_ssp_rk_stepper.hpp: ESSPRKStepper::operator++, GetStep, GetStage, GetTimestamp, GetTimeAtCurrentStage"]}
{"id": "C10", "title": "Runge-Kutta stages form convex combinations and keep linear invariants", "statement": "For every supported (stages, order) pair all coefficients are non-negative, each row of state weights sums to one within 1e-14, and a full time step whose right-hand sides conserve a linear quantity changes it by at most the row-sum error; for the schemes with exact rows it is conserved exactly.", "quantifier": "for all supported schemes, all states, right-hand sides and linear functionals", "why_tests_cant": "linear-invariant statement quantifies over all states and right-hand sides", "anchors": ["source/simulation/stepper/explicit_ssp_rk_stepper.cpp: ESSPRKStepper::InitializeCoefficients", "source/simulation/stepper/explicit_ssp_rk_stepper.hpp: ESSPRKStepper::UpdateState"]}
{"id": "C11", "title": "Runge-Kutta schemes have their advertised order", "statement": "For every supported scheme of order p, the Butcher form of the stage update satisfies all order conditions up to p (rooted trees of order at most 4): exactly for (1,1), (2,2), (3,3), (4,3), within 2e-15 for the other third-order schemes, and within 9e-11, 6e-13, 5e-12 and 4e-14 for (5,4), (6,4), (7,4) and (8,4), the accuracy of the printed digits. On the linear test equation one step agrees with the exponential series through degree p within 1e-10.", "quantifier": "for all twelve supported schemes; the linear test for all real z", "why_tests_cant": "a test on one ODE cannot separate order p from p minus one with small constants; order conditions cover all smooth ODEs", "anchors": ["source/simulation/stepper/explicit_ssp_rk_stepper.cpp: ESSPRKStepper::InitializeCoefficients"]}
{"id": "C12", "title": "Stage times match the stage states", "statement": "The time reported at stage s of a step is t plus dt times the abscissa at which the stage state approximates the solution. This is violated by every supported scheme with two or more stages.", "quantifier": "for all supported schemes and stages (violated: witnesses given per scheme)", "why_tests_cant": "manufactured-solution tests at coarse tolerance hide an O(dt) error in forcing time", "anchors": ["source/simulation/stepper/explicit_ssp_rk_stepper.cpp: ESSPRKStepper::InitializeCoefficients (crk, drk)", "source/simulation/stepper/explicit_ssp_rk_stepper.hpp: ESSPRKStepper::GetTimeAtCurrentStage"]}
{"id": "C13", "title": "Boundary edge lookup finds exactly the consecutive node pairs", "statement": "Asking whether a node list contains an edge answers yes exactly when the two nodes occur next to each other somewhere in the list, in either order.", "quantifier": "for all node lists (with repetitions) and all node pairs", "why_tests_cant": "lists of arbitrary length with repeated nodes", "anchors": ["source/preprocessor/ADCIRC_reader/adcirc_format.cpp: AdcircFormat::has_edge"]}
{"id": "C14", "title": "Element neighbours are mutual", "statement": "In mesh metadata built from an ADCIRC mesh, if face k of element e names neighbour f as an internal face, then f has a face on the same two nodes, internal, naming e; conversely two faces on one edge name each other. A face shared by no other element carries the boundary type of its edge and no neighbour; faces opposite each other across a barrier name each other as levee faces. The construction succeeds whenever every unshared edge is classified and every levee edge faces a mesh edge.", "quantifier": "for all triangulations in which every edge belongs to at most two elements, ids below 2^32-1, and every iteration order of the hash maps", "why_tests_cant": "any mesh size and numbering; hash-map based construction", "anchors": ["source/preprocessor/mesh_metadata.cpp: MeshMetaData::MeshMetaData(const AdcircFormat&)"]}
{"id": "C15", "title": "Every internal face becomes exactly one interface", "statement": "From a mesh whose internal faces name each other, interface creation yields exactly one interface per unordered pair of matching faces, uses every internal face exactly once and leaves none behind; the same for levee faces; every other unshared face is collected exactly once under its own type. A face without partner is dropped silently, and two elements sharing two edges lose one of the two interfaces (witnesses).", "quantifier": "for all collections of raw internal faces that are mutually matching; end to end for all meshes in which two elements share at most one edge, for every iteration order", "why_tests_cant": "quantifies over all meshes; the erase-while-iterating loop depends on order", "anchors": ["source/problem/SWE/problem_preprocessor/swe_pre_create_intface.hpp: create_interfaces", "source/preprocessor/initialize_mesh.hpp"]}
{"id": "C16", "title": "Generated quadrilateral meshes are conforming triangulations", "statement": "For each of the three patterns, with m, n >= 1 and counts below 2^32, the generator emits (m+1)(n+1) nodes at the bilinear grid positions of the four corners and 2*m*n triangles with ids 0, 1, 2, ..., using exactly those nodes; every edge is shared by exactly two triangles or lies on exactly one of the four emitted boundary lists, which run along the four sides; the signed areas sum to the area of the quadrilateral; for a convex counter-clockwise quadrilateral every triangle is counter-clockwise. The solver's mesh construction accepts the result in every hash order, gives every boundary face the type of its list, and serial start-up succeeds exactly when no list has the outflow type. Violated: a quadrilateral with a dent gives clockwise triangles, and 65536 x 65536 cells write outside the node array.", "quantifier": "for all m, n >= 1 with 2mn and (m+1)(n+1) below 2^32, all three patterns, all corner positions, all four boundary types, all orders of the element and edge tables", "why_tests_cant": "unbounded in m and n", "anchors": ["mesh_generators/quad_mesh_generator.cpp: simple_pattern_tri, zigzag_pattern_tri, checker_pattern_tri, main", "source/preprocessor/mesh_metadata.cpp: MeshMetaData::MeshMetaData", "source/preprocessor/initialize_mesh.hpp: initialize_mesh_interfaces_boundaries"]}
{"id": "C17", "title": "Partitioning neither loses nor duplicates elements", "statement": "For every non-empty mesh and every assignment METIS may return, partitioning succeeds, every element is in exactly one submesh with its nodes and neighbours unchanged, two elements are in the same submesh exactly when METIS put them in the same part, the submesh is on a rank of the node METIS chose, the submesh's node table is exactly the nodes its elements use, no submesh is empty, and a face keeps its type when both elements are in the same submesh and becomes the distributed version of its type exactly when they are not. VIOLATED for a mesh without elements (end iterator dereferenced).", "quantifier": "for all meshes, all numbers of partitions and every assignment METIS may return", "why_tests_cant": "METIS output is an arbitrary assignment; quantifies over all of them", "anchors": ["partitioner/partition.cpp: partition"]}
{"id": "C18", "title": "Distributed interface files are complete and consistent", "statement": "For every mesh whose neighbours are mutual and meet in one face, and every partition of it, each submesh reads back one group per neighbouring submesh; the group lists exactly the faces cut between the two, each once, with its own side as interior and the opposite side (element and face number) as exterior; the partner reads the same faces in the same order with the sides exchanged. VIOLATED when two elements meet in two faces: only one of the two cut faces is listed.", "quantifier": "for all meshes, partitions, rank assignments", "why_tests_cant": "set/map algorithm over arbitrary meshes and encodings of (locality, submesh)", "anchors": ["partitioner/write_distributed_interfaces.cpp: write_distributed_edge_metadata", "source/preprocessor/mesh_metadata.cpp: DistributedBoundaryMetaData reader"]}
{"id": "C19", "title": "Message buffers hold every boundary message without overlap", "statement": "For each communication type, the regions of a rank-boundary buffer assigned to different distributed faces are pairwise disjoint, lie inside the buffer, are large enough for the messages written there, and the receiver reads for each face exactly the message the neighbour wrote for that face, whatever order the faces write in and whatever the buffers held before; the decoded values are those of the neighbour at the mirrored Gauss point. Two parts of the exchange are violated: a dry neighbour's water depth arrives as zero in the slope-limiter message, and a submesh without neighbours makes the communicator dereference the end of an empty vector.", "quantifier": "for all sequences of distributed faces with arbitrary Gauss point counts and all messages, for RKDG, EHDG and IHDG", "why_tests_cant": "buffer layout is the result of an unbounded accumulation; overlap depends on the sequence", "anchors": ["source/problem/SWE/discretization_RKDG/rkdg_swe_problem.hpp: comm_buffer_offsets", "source/problem/SWE/discretization_EHDG/ehdg_swe_problem.hpp: comm_buffer_offsets", "source/problem/SWE/discretization_IHDG/ihdg_swe_problem.hpp: comm_buffer_offsets", "source/communication/db_data_exchanger.hpp", "source/problem/SWE/problem_preprocessor/swe_pre_create_dbound.hpp"]}
{"id": "C20", "title": "MPI tags identify the submesh pair", "statement": "The tag a submesh uses to send equals the tag its partner uses to receive; with all submesh ids below 256 different ordered pairs use different tags (256*a+b). VIOLATED beyond: with id 256 tags collide, and from id 128 on tags exceed 32767, the only range MPI guarantees.", "quantifier": "for all submesh ids; witness of collision for id 256", "why_tests_cant": "needs all pairs of pairs; collisions only at sizes no test uses", "anchors": ["source/communication/ompi_communicator.cpp: OMPIRankBoundary/OMPICommunicator constructor"]}
{"id": "C21", "title": "The CSR graph handed to METIS is the symmetric weighted graph of the input", "statement": "Offsets are monotone and delimit each node's neighbour list, neighbour lists contain exactly the adjacent nodes without repetition, adjacency is symmetric, and the two directions of an edge carry the same weight; the mesh graph has no self-loops; a submesh's weight is the sum of its elements' weights and the weight between two submeshes counts the mesh edges between them. VIOLATED: the submesh graph contains self-loops with doubled weight, which METIS does not allow.", "quantifier": "for all node-weight and edge-weight maps", "why_tests_cant": "arbitrary graphs", "anchors": ["partitioner/csrmat.hpp: CSRMat", "partitioner/partition.cpp: partition"]}
{"id": "C22", "title": "Every submesh is advanced by exactly one thread", "statement": "The static split of simulation units over OpenMP threads assigns each unit to exactly one thread and no thread touches an index out of range, as long as units + threads <= 2^32.", "quantifier": "for all numbers of units and all positive numbers of threads", "why_tests_cant": "unbounded in both numbers; rounding cases such as 5 units on 4 threads", "anchors": ["source/simulation/ompi/simulation_ompi.hpp: OMPISimulation::Run"]}
{"id": "C23", "title": "Number of time steps and output schedule", "statement": "A run takes the least number of steps that covers the requested run time; output is written at step 0 and then exactly at the multiples of the output frequency, which is positive for every positive requested period and never below it. A zero period makes the schedule undefined (division by zero).", "quantifier": "for all run times, dt > 0, periods and step counts", "why_tests_cant": "ceil/modulo relation over all inputs", "anchors": ["source/preprocessor/input_parameters.hpp: InputParameters ctor", "source/simulation/serial/simulation.hpp: Simulation::Run", "source/simulation/writer.hpp: Writer::WriteOutput"]}
{"id": "C24", "title": "Partitioned runs open the files the partitioner wrote", "statement": "For every mesh file name, the submesh file name and the distributed-interface file name derived by a parallel run from the updated input are those the partitioner wrote, different (locality, submesh) pairs and file kinds get different names, the bcis name is unchanged, and probing a directory holding one partition finds exactly its submeshes. A mesh name without a dot throws. VIOLATED with files left from an earlier, larger partition: they are started as well.", "quantifier": "for all base names, localities and submesh ids", "why_tests_cant": "string functions over all names, including names containing dots and underscores", "anchors": ["source/partitioner/partitioner.cpp: main", "source/preprocessor/input_parameters.hpp: InputParameters(const std::string&, uint, uint)"]}
{"id": "C25", "title": "Modal basis indexing is a bijection with consistent sizes", "statement": "Degree-of-freedom numbers 0..(p+1)(p+2)/2-1 correspond one-to-one to pairs of nonnegative integers with sum at most p, and hierarchically: lower-degree bases are prefixes; the unsigned subtractions never wrap, and rounding errors in the square root below 1/(2d+3) do not change the degree found.", "quantifier": "for all polynomial orders p and dofs", "why_tests_cant": "the code uses a ceil of a square root; correctness for all dofs needs a proof", "anchors": ["source/basis/bases_2D/basis_dubiner_2D.cpp: Dubiner_2D::GetPhi, GetDPhi, GetMinv"]}
{"id": "C26", "title": "Modal and vertex representations are inverse", "statement": "For orders of at least one, converting a linear modal expansion to vertex values and back is the identity in both directions (higher modes are dropped), the vertex values are the values of the basis functions at the vertices, and both representations are the same function on the triangle. For order zero the conversion tables are written out of range (violated).", "quantifier": "for all expansions and all orders (violated for order zero)", "why_tests_cant": "linear-algebra identity for all inputs, tied to the polynomial basis definition", "anchors": ["source/basis/bases_2D/basis_dubiner_2D.cpp: GetBasisLinearT, GetLinearBasisT"]}
{"id": "C27", "title": "Basis orthogonality and mass matrix", "statement": "The triangle basis functions are orthogonal over the master triangle and the inverse mass entries are the reciprocals of their squared norms; every basis function is a polynomial of its degree, and both its values and its partial derivatives as computed, including the code's special-case values at the collapsed vertex, are those of that polynomial.", "quantifier": "for all basis functions up to degree 298 (where 32-bit products cannot wrap), by exact integration over the reals", "why_tests_cant": "floating-point tests only see approximate zeros; the exact statement needs symbolic integration", "anchors": ["source/basis/bases_2D/basis_dubiner_2D.cpp", "source/basis/polynomials/basis_polynomials.cpp: jacobi_polynomial, jacobi_polynomial_derivative"]}
{"id": "C28", "title": "Straight triangles have a closed boundary with outward unit normals", "statement": "For each non-degenerate triangle: edge normals have unit length, point outward, the length-weighted normals sum to zero, the Jacobian determinant is the area divided by the master triangle's area (2), the master-to-physical map sends master vertices to nodes and is inverted by the global-to-local map, lengths, radius, midpoints and derivative factors are the geometric ones, and the constructor always leaves the nodes counter-clockwise.", "quantifier": "for all non-degenerate triangles", "why_tests_cant": "identities over all real coordinates with square roots", "anchors": ["source/shape/shapes_2D/shape_straighttriangle.cpp"]}
{"id": "C29", "title": "Edge kinds are disjoint and survive distribution", "statement": "Every edge type is exactly one of boundary, internal, distributed; marking an internal-kind type as distributed gives a distributed type and different types stay different.", "quantifier": "for all 256 type codes", "why_tests_cant": "tests check named constants, not the whole code space", "anchors": ["source/utilities/edge_types.hpp"]}
{"id": "C30", "title": "Explicit HDG interface fluxes conserve all quantities", "statement": "In the explicit HDG solver with both elements wet, the two sides' trace fluxes cancel at matching Gauss points in every component, regardless of stale values in the flux buffers; with a dry side mass still cancels.", "quantifier": "for all numbers of Gauss points, states, previous buffer contents, unit normals, wet/dry flags", "why_tests_cant": "the in-place loop reads entries it has already updated; correctness depends on ordering for every ngp", "anchors": ["source/problem/SWE/discretization_EHDG/interface_specializations/ehdg_swe_is_internal.hpp: Internal::ComputeNumericalFlux"]}
{"id": "C31", "title": "Distributed faces compute the same flux as internal faces", "statement": "When two elements are on different ranks, each rank computes from the exchanged message the same flux for its side that the serial code computes for the corresponding side of the internal interface.", "quantifier": "for all states, wet/dry flags, numbers of Gauss points, unit normals (equal bathymetry on both sides of the face, spherical factor 1)", "why_tests_cant": "floating comparison of parallel and serial runs only samples states; branch asymmetries show in rare wet/dry cases", "anchors": ["source/problem/SWE/discretization_RKDG/dist_boundary_conditions/rkdg_swe_dbc_distributed.hpp: Distributed::ComputeFlux", "source/problem/SWE/discretization_RKDG/interface_specializations/rkdg_swe_is_internal.hpp", "source/problem/SWE/discretization_EHDG/dist_boundary_conditions/ehdg_swe_dbc_distributed.hpp"]}
{"id": "C32", "title": "A full explicit step conserves total water volume on a closed basin", "statement": "A whole Runge-Kutta step of the serial RKDG scheme (all stages: volume, source, interface and boundary kernels, mass inversion, stage combination, wetting/drying, slope limiting) always finishes for orders at least one and satisfies the water balance: new volume = r * old volume + dt * weighted mean of the stages' net inflows (rain, boundary inflow, levee defect) + water created by lifting elements to the threshold depth, with |r-1| <= 1e-13 (r = 1 for seven of the twelve schemes). On a closed basin (internal interfaces and land only, no mass source) a step, and any number of steps, never loses water and keeps the volume whenever no element is lifted. Violated: with wetting and drying on the volume is not constant, since an element whose mean depth falls below the threshold is filled up.", "quantifier": "for all meshes of proper triangles with symmetric face weights and Cartesian coordinates, states, wet/dry flags, boundary data, supported schemes and numbers of steps", "why_tests_cant": "end-to-end invariant over arbitrary meshes and many stages", "anchors": ["source/problem/SWE/discretization_RKDG/kernels_processor/rkdg_swe_proc_serial_step.hpp", "source/problem/SWE/discretization_RKDG/kernels_processor/rkdg_swe_proc_volume.hpp", "source/problem/SWE/discretization_RKDG/kernels_processor/rkdg_swe_proc_source.hpp", "source/problem/SWE/discretization_RKDG/kernels_processor/rkdg_swe_proc_intface.hpp", "source/problem/SWE/discretization_RKDG/kernels_processor/rkdg_swe_proc_bound.hpp", "source/simulation/stepper/explicit_ssp_rk_stepper.hpp: UpdateState"]}
{"id": "C33", "title": "Global degree-of-freedom numbering of the hybridized solvers", "statement": "Every skeleton edge owns a contiguous block of global unknowns; blocks of different edges are disjoint and together cover 0..N-1, across all submeshes and ranks, and the two sides of a distributed edge use the same block; the local solution offset of each edge points at its block. (On every rank but the first, front() is called on an empty vector while gathering the totals.)", "quantifier": "for all numbers of edges, edge orders, submeshes, ranks", "why_tests_cant": "exclusive-scan arithmetic over arbitrary distributions", "anchors": ["source/problem/SWE/discretization_IHDG/kernels_preprocessor/ihdg_swe_pre_init_global_prob.hpp", "source/problem/SWE/discretization_IHDG/kernels_preprocessor/ihdg_swe_pre_ompi.hpp"]}
{"id": "C34", "title": "Static condensation solves the full coupled system", "statement": "One Newton step of the implicit scheme: a trace vector solves the condensed matrix and right-hand side exactly when it belongs to a solution of the coupled element/trace system, and the updates added to element and trace states by the condensed solve and back-substitution are a solution of the coupled system; the positions of all assembled values lie inside the matrix. The same holds for the distributed assembly, where the two halves of an edge between submeshes act as the one edge of the undivided mesh. The iteration reports convergence exactly when the trace update's norm divided by the number of unknowns is below 1e-8. Violated: convergence does not bound the element update.", "quantifier": "for all meshes whose element boundaries are each a side of exactly one edge, all block sizes, invertible local blocks, uniquely solvable systems, exact inverse and solver routines (Eigen serial version and PETSc version; the Blaze serial version aborts)", "why_tests_cant": "algebraic equivalence for all matrices and meshes", "anchors": ["source/problem/SWE/discretization_IHDG/kernels_processor/ihdg_swe_proc_serial_sol_glob_prob.hpp: serial_solve_global_problem", "source/problem/SWE/discretization_IHDG/kernels_processor/ihdg_swe_proc_ompi_sol_glob_prob.hpp: ompi_solve_global_problem"]}
{"id": "C35", "title": "Meteorological forcing is available and interpolated at every step", "statement": "At every stage of every step of a run whose forcing files are complete the two bracketing snapshots are loaded (and no others kept), and every node gets the linear interpolant in time: equal to the snapshot at snapshot times, between the two snapshots for stage times within the step. A missing file stops the run with an exception. VIOLATED: a file lacking a node reads element 0 of an empty vector, and frequency 0 divides by zero.", "quantifier": "for all steps, forcing frequencies and snapshot data", "why_tests_cant": "sliding-window invariant by induction over steps", "anchors": ["source/problem/SWE/problem_parser/swe_parser.hpp: Parser::ParseMeteoInput, InterpolateMeteoData"]}
{"id": "C36", "title": "Every boundary type accepted on input can be simulated", "statement": "Each boundary type code accepted by the mesh reader leads to a boundary condition that the solver constructs: every edge on a non-island segment is classified, and without type 88 segments mesh initialisation leaves no face unprocessed. This is violated for islands (type 1, 11, 21: the metadata construction throws) and outflow (88: initialisation throws).", "quantifier": "for all meshes as in C14 and all boundary type codes (violated: witnesses)", "why_tests_cant": "the failure is a runtime error for rarely used codes", "anchors": ["source/preprocessor/ADCIRC_reader/adcirc_format.cpp: AdcircFormat ctor, get_ibtype", "source/problem/SWE/problem_preprocessor/swe_pre_create_bound.hpp: create_boundaries"]}
{"id": "C37", "title": "Barrier partner lookup is an involution", "statement": "For internal barriers given by pairs of node lists without repetition, the partner edge of the partner edge of a barrier edge is the edge itself, partners have opposite orientation, and an edge on no barrier is rejected with an error. A barrier with a single node reads outside its list (witness).", "quantifier": "for all lists of barriers of at least two nodes in which no edge lies on two barriers, and all edges", "why_tests_cant": "lists of arbitrary length", "anchors": ["source/preprocessor/ADCIRC_reader/adcirc_format.cpp: AdcircFormat::get_internal_node_pair"]}
{"id": "C38", "title": "Mesh metadata written to disk is read back unchanged", "statement": "Reading the text form of mesh metadata returns the same name, element table (nodes, neighbours, type codes) and node ids, and coordinates within one part in 10^14; coordinates that are decimal numbers of at most 15 digits return exactly, and a second round trip changes nothing. This needs a name of one word, equally long node, neighbour and type lists, and type codes that are not white space as characters (all codes of the program qualify). Violated: a name of two words loses the second; an empty name makes the reader run off the file; a type code such as 32 is read as another code; 1 + 2^-52 is read as 1.", "quantifier": "for all names, element and node tables in every iteration order, all 32-bit ids, all normal double coordinates", "why_tests_cant": "format ambiguity over all names and type codes", "anchors": ["source/preprocessor/mesh_metadata.hpp: operator<<, operator>>", "source/preprocessor/mesh_metadata.cpp: MeshMetaData::write_to, MeshMetaData(const std::string&)"]}
{"id": "C39", "title": "Levees: closed levees are walls; overtopped levees conserve mass only if the interior discharges match", "statement": "If both water levels are within the crest tolerance, or equal within it, no water passes a levee. When it is overtopped, the mass fluxes handed to the two sides sum to half the sum of the outward interior normal discharges, so they cancel exactly when those discharges do; for water at rest on both sides they cancel and the flow is from the higher to the lower side. In general mass is not conserved and the direction is not determined by the levels (witnesses).", "quantifier": "for all water levels, crest heights, nonnegative coefficients, unit normals", "why_tests_cant": "case analysis over continuous heads", "anchors": ["source/problem/SWE/discretization_RKDG/interface_specializations/rkdg_swe_is_levee.hpp: Levee::ComputeFlux"]}
{"id": "C40", "title": "Bottom friction never accelerates the flow", "statement": "The bottom-friction source leaves the mass equation alone, is parallel to the discharge and opposes it: its power is non-positive, strictly negative in moving water with a positive coefficient, and it vanishes at rest, for the constant and the Manning friction law and every Gauss point of an element.", "quantifier": "for all states with positive depth and all nonnegative friction coefficients", "why_tests_cant": "inequality over continuous states", "anchors": ["source/problem/SWE/problem_source/swe_source.hpp"]}
{"id": "C41", "title": "Clockwise input elements are handled consistently", "statement": "The edge a solver boundary k describes geometrically is the edge between the nodes the topology names for face k, also for elements listed clockwise. This is violated for clockwise elements.", "quantifier": "for all triangles (violated for negative orientation)", "why_tests_cant": "test meshes are all counter-clockwise", "anchors": ["source/shape/shapes_2D/shape_straighttriangle.cpp: StraightTriangle ctor", "source/geometry/element.hpp: Element::CreateRawBoundaries"]}
{"id": "C42", "title": "Boundary edges are classified by priority and direction-independently", "statement": "The type found for a boundary edge is tide if the edge lies on an open boundary, otherwise the kind of the first land segment in file order containing it, otherwise land if it lies on a generic boundary or closes a barrier, otherwise an error; exchanging the two nodes never changes the answer. A barrier with no nodes makes the lookup read an empty list (witness).", "quantifier": "for all meshes read from file with non-empty barriers, and all node pairs", "why_tests_cant": "unbounded segment lists and overlaps between segments", "anchors": ["source/preprocessor/ADCIRC_reader/adcirc_format.cpp: AdcircFormat::get_ibtype, is_levee_end"]}
{"id": "C43", "title": "Both sides of an interface see the same Gauss points", "statement": "For two counter-clockwise elements sharing an edge, Gauss point gp of one side is the point ngp-gp-1 of the other side when the one-dimensional rule is symmetric, both sides carry the same surface weight, and their normals are opposite.", "quantifier": "for all pairs of triangles sharing an edge, all face numbers and all symmetric rules", "why_tests_cant": "holds for all geometries and rules; tests use a handful of meshes", "anchors": ["source/shape/shapes_2D/shape_straighttriangle.cpp: GetSurfaceNormal, GetSurfaceJ, LocalToGlobalCoordinates", "source/master/elements_2D/master_triangle.tpp: BoundaryToMasterCoordinates"]}
{"id": "C44", "title": "The boundary basis is the Legendre basis", "statement": "The one-dimensional basis functions are orthogonal on [-1,1], their inverse mass entries are the reciprocals of the squared norms, and the derivatives computed are the derivatives.", "quantifier": "for all functions up to degree 500, over the reals", "why_tests_cant": "exact statement needs integration for every degree", "anchors": ["source/basis/bases_1D/basis_legendre_1D.cpp", "source/basis/polynomials/basis_polynomials.cpp"]}
{"id": "C45", "title": "Distributed boundary files are read as written", "statement": "Reading the text of a distributed boundary file written by the partitioner gives each submesh exactly the rank boundaries of the groups written (own side first), for all numbers below 2^32, and throws if a group does not concern the submesh. An empty line anywhere in the file makes the reader use stale or uninitialised numbers (violated).", "quantifier": "for all lists of groups and faces with 32-bit numbers (violated for files with empty lines)", "why_tests_cant": "the reader and writer agree character by character for every list; tests use a few fixed files", "anchors": ["partitioner/write_distributed_interfaces.cpp: write loop", "source/preprocessor/mesh_metadata.hpp: DBPairMetaData operators", "source/preprocessor/mesh_metadata.cpp: DistributedBoundaryMetaData"]}
{"id": "C46", "title": "ADCIRC mesh files are read as written", "statement": "Writing a mesh in ADCIRC format and reading the text back gives the same name, node and element numbers, connectivity, open, land, barrier and generic boundaries and totals; coordinates and barrier values come back within one part in 10^14, and exactly if they have at most 15 decimal digits, even where two fields touch. Violated: a mesh read from a file without a generic boundary section cannot be written (uninitialised count), a title of several words is cut, a truncated file is accepted and filled with zeros, and the second of two nodes with the same number is dropped silently.", "quantifier": "for all meshes with at least one node, 32-bit numbers, known boundary codes and normal finite coordinates", "why_tests_cant": "character-level agreement of writer and reader for every mesh and every double", "anchors": ["source/preprocessor/ADCIRC_reader/adcirc_format.cpp: AdcircFormat, write_to"]}
{"id": "C47", "title": "The solver reads the generated quadrilateral mesh", "statement": "The file the quadrilateral mesh generator writes is read by the ADCIRC reader as exactly the generated elements, open and land boundary lists and codes, with no generic boundaries; the coordinates are within 10^-12 plus one unit in the last place of the generated ones. Different coordinates can become equal in the file (violated for spacings below 10^-12).", "quantifier": "for all m, n whose node and element counts fit 32 bits, all three patterns, all boundary types and all coordinates", "why_tests_cant": "all sizes and coordinates, at character level", "anchors": ["mesh_generators/quad_mesh_generator.cpp: file output", "source/preprocessor/ADCIRC_reader/adcirc_format.cpp: AdcircFormat"]}
{"id": "C48", "title": "A lake at rest stays at rest", "statement": "Starting from a constant elevation and zero discharge, the initial projection reproduces the constant exactly on every element, the right-hand side of every equation and mode is zero for any bathymetry given at the nodes (pressure flux, interface flux and bed-slope source cancel), and any number of RKDG steps of the schemes with exact row sums returns the same state, with wetting and drying and slope limiting on or off; the other schemes change the elevation per step by a relative 10^-13 at most. The depth at every point exceeds that of the shallowest vertex, so no division by zero occurs. With the spherical projection this is violated: the numerical flux scales only its inner flux by the projection factor, and a lake at rest on a flat bed starts to move.", "quantifier": "for all conforming triangle meshes, orders 1 to 298, bathymetries, elevations, levees, exact quadrature rules, time steps and numbers of steps", "why_tests_cant": "all meshes, bathymetries, orders and numbers of steps; the cancellation is between four kernels", "anchors": ["source/problem/SWE/problem_preprocessor/swe_pre_init_data.hpp: initialize_data_serial", "source/problem/SWE/discretization_RKDG/kernels_processor/rkdg_swe_proc_volume.hpp: volume_kernel", "source/problem/SWE/discretization_RKDG/kernels_processor/rkdg_swe_proc_source.hpp: source_kernel", "source/problem/SWE/discretization_RKDG/numerical_fluxes/rkdg_swe_LLF_flux.hpp: LLF_flux"]}
{"id": "C49", "title": "The implicit solver's Newton matrix is the Jacobian of its residual", "statement": "For the serial implicit HDG shallow-water solver, the four blocks assembled per pass (delta_local, delta_hat_local, delta_global, delta_hat_global) are minus the partial derivatives of the assembled right-hand sides rhs_local and rhs_global in the element and trace coefficients, and the blocks that are not stored are zero: element equations in trace unknowns of interfaces and boundaries with nonzero normal velocity, trace equations in trace unknowns (land always, interfaces with nonzero normal velocity, open boundaries away from critical speeds), and trace equations in element unknowns for land and prescribed states. Violations, each with the exact missing term: delta_local omits the bed-slope derivative g grad(b), so it is exact only over a flat bed; delta_global omits A^- dq_inf/dq on flow and tide boundaries; with bottom friction the derivative divides by the speed, so water at rest at one Gauss point is a division by zero.", "quantifier": "for all conforming meshes, orders, states and traces with positive depth, time steps, theta, source parameters with Manning friction not exactly at its lower bound, and symmetric edge quadrature weights", "why_tests_cant": "derivatives in all coefficients at all states; finite differences only sample and a wrong block only slows convergence", "anchors": ["source/problem/SWE/discretization_IHDG/kernels_processor/ihdg_swe_proc_serial_step.hpp: solve loop", "source/problem/SWE/discretization_IHDG/kernels_processor/ihdg_swe_proc_volume.hpp: local_volume_kernel", "source/problem/SWE/discretization_IHDG/kernels_processor/ihdg_swe_proc_source.hpp: local_source_kernel", "source/problem/SWE/discretization_IHDG/kernels_processor/ihdg_swe_proc_edge_intface.hpp: local_edge_interface_kernel, global_edge_interface_kernel", "source/problem/SWE/discretization_IHDG/kernels_processor/ihdg_swe_proc_edge_bound.hpp: local_edge_boundary_kernel, global_edge_boundary_kernel", "source/problem/SWE/discretization_IHDG/boundary_conditions/ihdg_swe_bc_land.hpp: ComputeGlobalKernels", "source/problem/SWE/discretization_IHDG/boundary_conditions/ihdg_swe_bc_flow.hpp: ComputeGlobalKernels"]}
{"id": "C50", "title": "The implicit solver conserves mass in a closed basin", "statement": "A pass of the serial implicit HDG solver whose increments solve its linear system changes the total of each conserved quantity by exactly dt times the linearised sources and the linearised boundary fluxes (plus theta times the stored previous right-hand side): fluxes between elements cancel, also before convergence. After any such pass the trace of a land edge equals the element state without its normal discharge at every Gauss point. Hence in a basin with only land boundaries and no function source the volume is preserved by two or more passes, converged or not, and by a single pass when the land traces start at the element's surface elevation; with theta nonzero (second order scheme) the volume changes by -dt theta times the interface residuals of the previous trace. Violation: a single first pass from a land trace at another elevation does not preserve the volume (witness).", "quantifier": "for all conforming meshes with proper triangles and orders up to 298, positive symmetric edge weights, states, traces, bottom friction and bed data, time steps, theta, and increments solving the assembled system", "why_tests_cant": "an identity over all states, traces and numbers of passes; tests only see converged runs with rounding errors", "anchors": ["source/problem/SWE/discretization_IHDG/kernels_processor/ihdg_swe_proc_serial_step.hpp: stage_serial", "source/problem/SWE/discretization_IHDG/kernels_processor/ihdg_swe_proc_init_iter.hpp: init_iteration", "source/problem/SWE/discretization_IHDG/kernels_processor/ihdg_swe_proc_serial_sol_glob_prob.hpp: serial_solve_global_problem", "source/problem/SWE/discretization_IHDG/kernels_processor/ihdg_swe_proc_edge_intface.hpp: global_edge_interface_kernel", "source/problem/SWE/discretization_IHDG/kernels_processor/ihdg_swe_proc_edge_bound.hpp: global_edge_boundary_kernel", "source/problem/SWE/discretization_IHDG/boundary_conditions/ihdg_swe_bc_land.hpp: ComputeGlobalKernels"]}
{"id": "C51", "title": "A stage of the RKDG solver solves the discontinuous Galerkin equations", "statement": "After the volume, source, interface and boundary kernels of a stage of the serial RKDG solver, the right-hand side of every element, variable and test function equals the weak form of the shallow-water equations there: quadrature of the physical flux against the physical gradient of the test function (Jacobian of the triangle from its corners) and of sources, bottom friction and forcing against the test function, minus the numerical fluxes of every interface and boundary side of the element against the test function on that side, with both sides of an interface at the same physical point; dry elements have no volume term and interfaces dry on both sides no flux. The update then solves the element's mass matrix system exactly (its solution is unique), forms the Shu-Osher combination of all stages so far, stores it in the next slot (slot 0 after the last stage), leaves the other slots unchanged, applies wetting and drying element by element and stores its flags, and limits with the centre values and wet flags that the elements across the three faces have after wetting and drying (the element itself at a boundary). Such a stage never ends in an error.", "quantifier": "for all meshes of proper triangles whose faces each belong to one interface or boundary, orders up to 298, quadrature rules, bathymetry, spherical factors, friction, forcing, levees, boundary conditions, states, schemes and stages", "why_tests_cant": "tests compare a few final errors; a wrong sign, factor or point in one term for one variable or test function only lowers the order or perturbs runs they do not cover", "anchors": ["source/problem/SWE/discretization_RKDG/kernels_processor/rkdg_swe_proc_serial_step.hpp: stage_serial", "source/problem/SWE/discretization_RKDG/kernels_processor/rkdg_swe_proc_volume.hpp: volume_kernel", "source/problem/SWE/discretization_RKDG/kernels_processor/rkdg_swe_proc_source.hpp: source_kernel", "source/problem/SWE/discretization_RKDG/kernels_processor/rkdg_swe_proc_intface.hpp: interface_kernel", "source/problem/SWE/discretization_RKDG/kernels_processor/rkdg_swe_proc_bound.hpp: boundary_kernel", "source/simulation/stepper/explicit_ssp_rk_stepper.hpp: UpdateState"]}
{"id": "C52", "title": "The distributed solver computes what the serial solver computes", "statement": "If a mesh is decomposed into submeshes (each element, inner interface and boundary in one of them, each cut interface as one face on a rank boundary of each side, rank boundaries paired in order), then after any number of stages and steps the distributed RKDG solver holds on every element exactly the serial state: polynomial coefficients in all stage slots, right-hand sides, solutions and wet flags, including wetting and drying, the slope limiter with centre values from the other submesh, and levees on cut faces. No buffer access is out of range and the order in which faces and units are visited does not matter. This needs the cut faces to conform: same length and bathymetry seen from both sides and, at ordinary interfaces, a spherical factor of 1. Violated otherwise: with another spherical factor the momentum differs because the numerical flux scales only the side that computes it, and at a levee whose two sides have different lengths the serial solver integrates over the inner side's length on both sides.", "quantifier": "for all meshes and decompositions into any number of submeshes, orders up to 298, states, schemes, numbers of steps, visiting orders, buffer sizes below 2^32; violated cases by witness", "why_tests_cant": "tests compare one partition of one mesh within a tolerance; differences at a single cut face or stage stay below it", "anchors": ["source/problem/SWE/discretization_RKDG/kernels_processor/rkdg_swe_proc_ompi_step.hpp: stage_ompi", "source/problem/SWE/discretization_RKDG/kernels_processor/rkdg_swe_proc_dbound.hpp: distributed_boundary_send_kernel", "source/problem/SWE/discretization_RKDG/dist_boundary_conditions/rkdg_swe_dbc_distributed.hpp: Distributed::ComputeFlux", "source/problem/SWE/discretization_RKDG/dist_boundary_conditions/rkdg_swe_dbc_distributed_levee.hpp: DistributedLevee::ComputeFlux", "source/problem/SWE/problem_slope_limiter/swe_CS_sl_ompi.hpp: CS_slope_limiter_ompi", "source/communication/ompi_communicator.hpp: OMPICommunicator"]}
{"id": "C53", "title": "Tide and flow boundaries follow the harmonic signal of the input file", "statement": "When every section of a .bcis file lists each of its nodes once per constituent, every tide or flow face whose two nodes are in a section gets the table of the first such section, and the value imposed by the explicit solvers at parameter z of the face is ramp * sum of ff * A * cos(freq t + (eq - phase) in radians, with the code's twelve digits of pi), A and phase interpolated linearly between the nodes, in order; for counter-clockwise elements the Gauss point lies at the same place between the same nodes. It is zero at the start of a ramped run, bounded by the amplitudes, within amplitude times 2e-15 per degree of the signal with exact pi, and independent of the direction of the face. A face without data is an error. Files written by the mesh generator give every tide or flow face of the generated mesh its data. Exact mass fluxes: at a flow boundary the mean of inner and imposed discharge, at a tide boundary the inner discharge plus a multiple of the level difference. Violated: the Newton passes of the implicit solver use the angles in degrees as radians; clockwise elements interpolate between the wrong nodes; the imposed discharge is not the mass flux; a section without constituents is ignored; a constituent that omits a node makes the constructor read past the end of a vector.", "quantifier": "for all files of complete sections, node numbers, constituents, times, ramps, face parameters, states, mesh sizes; violated cases by witness", "why_tests_cant": "test inputs use one constituent with zero angles, where degrees and radians agree, and constant tables, where interpolation order does not matter", "anchors": ["source/problem/SWE/problem_input/swe_inputs.cpp: Inputs::read_bcis", "source/problem/SWE/problem_input/swe_inputs.hpp: TideBoundary::get_tide_data, FlowBoundary::get_flow_data", "source/problem/SWE/problem_preprocessor/swe_pre_create_bound.hpp: create_boundaries", "source/problem/SWE/discretization_RKDG/boundary_conditions/rkdg_swe_bc_tide.hpp: Tide::ComputeFlux", "source/problem/SWE/discretization_RKDG/boundary_conditions/rkdg_swe_bc_flow.hpp: Flow::ComputeFlux", "source/problem/SWE/discretization_IHDG/boundary_conditions/ihdg_swe_bc_tide.hpp: Tide::ComputeGlobalKernels", "mesh_generators/quad_mesh_generator.cpp: WriteBCISFile"]}
{"id": "C54", "title": "Both sides of a levee use the crest data of the input file", "statement": "When no node belongs to two levee node pairs of the .bcis file, a levee interface gets for each of its nodes the row of the pair, whichever order the pair was given in, a levee face on a rank boundary gets the same rows from either side, and crest height and coefficients interpolated at a Gauss point are the same from both sides and equal to the serial ones. A face without data is an error. Violated: with a node in two pairs the distributed face gets three rows for two nodes (undefined product) while the serial interface is well defined; with a pair given in both orders the serial data depend on which side is called interior.", "quantifier": "for all files, node pairs and Gauss points; violated cases by witness", "why_tests_cant": "the only levee test uses constant crest data and runs serially, where a wrong pairing or order gives the same numbers", "anchors": ["source/problem/SWE/problem_input/swe_inputs.cpp: Inputs::read_bcis", "source/problem/SWE/problem_preprocessor/swe_pre_create_intface.hpp: create_interfaces", "source/problem/SWE/problem_preprocessor/swe_pre_create_dbound.hpp: create_distributed_boundaries", "source/problem/SWE/discretization_RKDG/interface_specializations/rkdg_swe_is_levee.hpp: Levee::Initialize", "source/problem/SWE/discretization_RKDG/dist_boundary_conditions/rkdg_swe_dbc_distributed_levee.hpp: DistributedLevee::Initialize"]}
{"id": "C55", "title": "The quadrature tables integrate what they promise", "statement": "For every degree p up to 65 the Gauss-Legendre table has (p+2)/2 points, increasing strictly inside (-1,1), positive weights, and integrates every polynomial of degree below twice the number of points within 1e-26 times the sum of the sizes of its coefficients; rounded to doubles its points are exactly opposite in pairs with equal weights, so both sides of an interface evaluate at the same places. For every degree p up to 20 the Dunavant table has the announced number of points and integrates every polynomial of total degree p over the master triangle within 2e-14 times the sum of the sizes of its coefficients. Elements of order above 10 have no area rule. The weights are all positive except for degrees 3, 7, 18, 20 and the points all lie in the triangle except for degrees 11, 15, 16, 18, 20. Violated: no table is exact; at orders 9 and 10 and in the L2 error the quadrature of a square can be negative.", "quantifier": "for all degrees, polynomials, pairs of triangles sharing an edge; violated cases by witness", "why_tests_cant": "tests integrate a few monomials with a loose tolerance; a wrong digit in one of 33 + 20 tables or a wrong permutation number for one degree goes unnoticed", "anchors": ["source/integration/integrations_1D/integration_gausslegendre_1D.cpp: GaussLegendre_1D::GetRule, GPData", "source/integration/integrations_2D/integration_dunavant_2D.cpp: Dunavant_2D::GetRule, GetNumGP, PermutationData, GPData", "source/master/elements_2D/master_triangle.tpp: Triangle", "source/geometry/element.hpp: ComputeResidualL2"]}
{"id": "C56", "title": "The explicit HDG step: flux through traces, water balance, rest, Newton's method at open boundaries", "statement": "One stage of the explicit HDG solver computes at every interface, wall and open boundary the HDG flux of the trace (the mean, the state without normal discharge, the polynomial found by the boundary iteration), integrates the weak form with these fluxes and advances, wets/dries and limits as the discontinuous solver does. The change of water volume in a stage or step is rain minus levee and boundary outflow plus the water created by wetting and drying; a closed basin without levees keeps its volume (exactly without wetting and drying). Water at rest within land boundaries stays at rest in every step. A pass of the boundary iteration is Newton's method for A+ (q - trace) = A- (q_ex - trace) tested along the edge; it is stationary exactly where this holds; passes stop when the mean change is below 1e-12, after at most 100. Violated: at a levee nothing is computed and stale buffers are integrated, so any amount of water may appear; the spherical projection is ignored altogether; for water at rest the linear system of the boundary iteration is singular, at level 0 in the first pass of a run.", "quantifier": "for all conforming meshes, orders, states, start-up contents of buffers, time steps, Runge-Kutta tables, linear solvers exact on uniquely solvable systems; violated cases by witness", "why_tests_cant": "the tests are one manufactured-solution run per discretization with function boundaries on a flat square; levees, projection, rest states at open boundaries are never run with this solver", "anchors": ["source/problem/SWE/discretization_EHDG/kernels_processor/ehdg_swe_proc_serial_step.hpp: Problem::stage_serial", "source/problem/SWE/discretization_EHDG/kernels_processor/ehdg_swe_proc_intface.hpp: global_interface_kernel, local_interface_kernel", "source/problem/SWE/discretization_EHDG/kernels_processor/ehdg_swe_proc_volume.hpp: local_volume_kernel", "source/problem/SWE/discretization_EHDG/interface_specializations/ehdg_swe_is_internal.hpp: Internal::ComputeNumericalFlux", "source/problem/SWE/discretization_EHDG/interface_specializations/ehdg_swe_is_levee.hpp: Levee::ComputeNumericalFlux", "source/problem/SWE/discretization_EHDG/boundary_conditions/compute_bc_trace.hpp: compute_bc_trace", "source/problem/SWE/discretization_EHDG/boundary_conditions/ehdg_swe_bc_land.hpp: Land::ComputeNumericalFlux", "source/problem/SWE/discretization_EHDG/kernels_preprocessor/ehdg_swe_pre_init_global_prob.hpp: initialize_global_problem"]}
{"id": "C57", "title": "Troubled cell indicator: which elements it marks and how far marks travel", "statement": "An element is flagged exactly when it is wet, has at least one face counted as inflow and the sum over these faces of |integral of the depth jump| exceeds R^((p+1)/2) times their length times the largest vertex depth; elements reachable from a flagged one in at most five neighbour steps inside the mesh are troubled, no others; where the depth is continuous nothing is troubled. Violated: inflow is decided with the rows elevation and qx in place of qx and qy (indices GlobalCoord::x, y into q_at_gp), so still water may be troubled and the result depends on the level from which elevation is measured, neither of which holds with the discharge rows; marks do not travel between submeshes, so a decomposed run differs from a serial one.", "quantifier": "for all meshes with face numbers below 3, neighbour tables, received messages, orders and states; violated cases by witness", "why_tests_cant": "no test runs the indicator; its result is only read by the Green-Naghdi correction", "anchors": ["source/problem/SWE/problem_slope_limiter/swe_trouble_check.hpp: check_trouble", "source/problem/SWE/problem_slope_limiter/swe_CS_sl_serial.hpp: CS_slope_limiter_serial", "source/problem/SWE/problem_slope_limiter/swe_CS_slope_limiter.hpp: slope_limiting_distributed_boundary_send_kernel"]}
{"id": "C58", "title": "Green-Naghdi dispersive correction: derivatives, source, the discrete problem, rest and clocks", "statement": "The projected derivatives solve the weak equation and are exact for continuous fields of degree p+1; the source kernel evaluates grad(2/3 h^3 c1 + 1/2 h^2 c4) + (h^2 c1 + h c4) grad b + g/alpha h grad zeta with grad zeta + grad b in place of grad h; where the discrete hybridised problem has a unique solution, a correction stage computes it through static condensation (element elimination, global assembly with the edge numbering, back substitution) and adds its rate to the momentum of the wet, untroubled, included elements; that problem has a unique solution for level water over a level bed; elevation, wetness and all excluded elements are unchanged; lakes at rest stay at rest through any number of split steps; after every split step both steppers show the same time. Violated: the slope of the depth has the sign of the bed slope wrong, so the source is off by 2h(2h c1 + c4) grad b on sloping beds; a levee next to a wet element leaves its edge equations unset; dry edges keep stale numbers that back substitution uses to read past the end of the global solution; with Blaze the dense solver overwrites the matrix it is called with again.", "quantifier": "for all meshes in which every face occurs once and no triangle is degenerate, orders up to 298, states, wet sets and Runge-Kutta tables; violated cases by witness", "why_tests_cant": "a run sees one mesh and one solution; stale numbers and unset blocks give plausible values; the sign error vanishes on level beds", "anchors": ["source/problem/Green-Naghdi/discretization_EHDG/kernels_processor/ehdg_gn_proc_serial_step.hpp: step_serial, dispersive_correction_serial", "source/problem/Green-Naghdi/discretization_EHDG/kernels_processor/ehdg_gn_proc_serial_sol_glob_prob.hpp: serial_solve_global_dc_problem", "source/problem/Green-Naghdi/discretization_EHDG/kernels_processor/ehdg_gn_proc_source.hpp: local_dc_source_kernel", "source/problem/Green-Naghdi/discretization_EHDG/kernels_processor/ehdg_gn_proc_edge_intface.hpp: local_dc_edge_interface_kernel, global_dc_edge_interface_kernel", "source/problem/Green-Naghdi/discretization_EHDG/kernels_processor/ehdg_gn_proc_edge_bound.hpp: local_dc_edge_boundary_kernel, global_dc_edge_boundary_kernel", "source/problem/Green-Naghdi/discretization_EHDG/kernels_processor/ehdg_gn_proc_volume.hpp: local_dc_volume_kernel, dispersive_correction_kernel", "source/problem/Green-Naghdi/discretization_EHDG/kernels_processor/grad_methods/projection_derivatives_serial.hpp: compute_derivatives_serial", "source/utilities/linear_algebra/use_blaze.hpp: solve_sle"]}
{"id": "C59", "title": "Meteorological forcing of a split (Green-Naghdi) run", "statement": "The steppers of a split run ask one parser, whose period is counted in whole steps. With a file for every step, or when twice the number of split steps exceeds the period by at most one, every call is served, and the dispersive steps get the linear interpolant of the snapshots at their time t. VIOLATED: the half steps of the shallow-water part get the interpolant for time 2t (with a linearly growing wind stress, twice the stress); in all longer runs with snapshots further apart than the time step the half steps drop the snapshot the dispersive steps still interpolate from, and element 0 of an empty vector is read; with the N+1 files that serve an unsplit run of N steps a split run of N steps stops with an exception.", "quantifier": "for all forcing files, periods, node sets, numbers of split steps and Runge-Kutta tables", "why_tests_cant": "short runs and constant forcing look right; the dropped snapshot is read as whatever lies behind an empty vector", "anchors": ["source/problem/Green-Naghdi/discretization_EHDG/kernels_processor/ehdg_gn_proc_serial_step.hpp: step_serial", "source/problem/SWE/problem_parser/swe_parser.hpp: Parser, ParseInput, ParseMeteoInput, InterpolateMeteoData", "source/simulation/stepper/second_strang_stepper.hpp: SecondStrangStepper"]}
{"id": "C60", "title": "Input files: read as written, written as read, and handed on by the partitioner", "statement": "Every parameter read from an input file is the value at its place in the file, and a feature (projection, initial conditions, friction, wind, tide, Coriolis, wetting and drying, slope limiting, load balancing, output) is on exactly when its section is complete; friction coefficients read are never negative. A problem section is read exactly when it has a name, no feature section is a bare word, no switch is a section, and everything used from complete sections is a number (a friction coefficient not negative); otherwise there is an exception, never undefined behaviour. Parameters that were read are read again, unchanged, after being written, provided numbers and the two times survive printing. The partitioner's file starts the same solver with the same parameters, except for the mesh format and the mesh file, with the same boundary and metadata files; partitioning it again changes nothing. The solver's global parameters show the input, however often they are set. VIOLATED: no input that a solver accepts is partitioned with the weights for wet elements, since the partitioner looks for the problem name swe, which no solver accepts; the Green-Naghdi reader accepts ihdg_gn, for which there is no solver; an empty output path is undefined behaviour; an incomplete or misspelt section, or a time that cannot be parsed, is accepted silently and runs without what was asked for.", "quantifier": "for all input trees, all number and time formats that survive printing, all problem names", "why_tests_cant": "the tests read a few complete files; they neither write one and read it again nor look at the weights the partitioner uses", "anchors": ["source/preprocessor/input_parameters.hpp: InputParameters, write_to, problem_specific_ctor_helper", "source/problem/SWE/problem_input/swe_inputs.cpp: Inputs, as_yaml_node", "source/simulation/serial/simulation_base.cpp: SimulationFactory::Create", "partitioner/partitioner.cpp: main", "source/problem/SWE/problem_preprocessor/swe_pre_init_prob_params.hpp: initialize_problem_parameters"]}
{"id": "C61", "title": "The distributed explicit HDG solver computes what the serial one does", "statement": "On a mesh without levees that is split over units, with the two sides of each cut edge of equal length and opposite normals, the preprocessing exchange leaves each unit with the mean bathymetry of both sides on its cut edges and zero traces. Each stage of the distributed explicit HDG solver, and hence any number of steps from the start, ends without error, and every unit then holds, for its elements, the states, right-hand sides and wetting flags of the serial solver, and for its open and land boundaries the same traces and boundary values. Unlike for the discontinuous Galerkin solver this also holds where the bathymetry jumps at the cut and with scaled coordinates.", "quantifier": "for all meshes and decompositions, all orders, all boundary conditions, all linear solvers, all numbers of stages and steps, with or without wetting and drying and slope limiting", "why_tests_cant": "the tests compare two partitions of one mesh with a flat bed at a tolerance; they do not cover a bed that jumps at a cut edge, dry partners or other message layouts", "anchors": ["source/problem/SWE/discretization_EHDG/kernels_processor/ehdg_swe_proc_ompi_step.hpp: Problem::step_ompi, stage_ompi", "source/problem/SWE/discretization_EHDG/kernels_preprocessor/ehdg_swe_pre_init_global_prob.hpp: initialize_global_problem_parallel_pre_send, initialize_global_problem_parallel_post_receive", "source/problem/SWE/discretization_EHDG/distributed_boundary_conditions/ehdg_swe_dbc_distributed.hpp: ComputeNumericalFlux", "source/problem/SWE/discretization_EHDG/kernels_processor/ehdg_swe_proc_dbound.hpp: global_distributed_boundary_kernel, local_distributed_boundary_kernel"]}
{"id": "C62", "title": "Least squares and Green-Gauss derivatives of the dispersive solver", "statement": "On every triangulation the least squares system of every element is solvable, its slope is the unique best fit to the differences to the neighbouring barycentres (midpoints at the boundary), and it is exact for affine fields. The Green-Gauss slope is the element mean of the gradient of the element's own polynomial: a staircase of elementwise constants has slope zero whatever the neighbours hold, where least squares sees the slope. Reconstruction keeps equal slopes; the least squares one reproduces affine slopes in elements without boundary faces, and fails to at the boundary. First and second derivatives of affine fields are exact by both methods. A pair of neighbours found for interpolation has non-negative weights that reproduce the midpoint up to 100 machine epsilons, and one is found whenever the midpoint lies between two directions; but there are triangulations with a face without pair, where interpolation uses data never set, and in a split run a pair across the cut replaces the pair of the undivided run, with another result. Averaging at the nodes on several ranks gives the mean over all elements at the node, independent of the partition and single valued; its serial version writes outside of an empty vector.", "quantifier": "for all triangulations, orders, fields, linear solvers and previous contents, all partitions and node numberings", "why_tests_cant": "the tests of the dispersive solver run the projection gradients only; the other methods are compile-time options, and the failing cases need meshes with particular angles", "anchors": ["source/problem/Green-Naghdi/problem_preprocessor/gn_pre_init_data.hpp: initialize_data_serial, initialize_data_parallel_post_receive", "source/problem/Green-Naghdi/problem_data_structure/gn_data_derivative.hpp: Derivative", "source/problem/Green-Naghdi/discretization_EHDG/kernels_processor/grad_methods/leastsquares_derivatives_serial.hpp: compute_derivatives_serial", "source/problem/Green-Naghdi/discretization_EHDG/kernels_processor/grad_methods/greengauss_derivatives_serial.hpp: compute_derivatives_serial", "source/problem/Green-Naghdi/discretization_EHDG/kernels_processor/grad_methods/recon_int_derivatives.hpp: reconstruct_du", "source/problem/Green-Naghdi/discretization_EHDG/kernels_processor/grad_methods/recon_ls_derivatives.hpp: reconstruct_du", "source/problem/Green-Naghdi/discretization_EHDG/kernels_processor/grad_methods/recon_avg_derivatives_ompi.hpp", "source/problem/Green-Naghdi/discretization_EHDG/kernels_preprocessor/ehdg_gn_pre_ompi.hpp: Problem::preprocessor_ompi"]}
{"id": "C63", "title": "Output files for visualisation and of coefficients", "statement": "For every subdivision number and order the legacy and the XML file are well formed: a reader of the published formats accepts them and gets, per element, cells that tile the element without overlap and with equal area, points that are images of points of the reference triangle with the polynomial solution and bathymetry at exactly these points, cell values at the centroids of the cells, and the identifier and wetting flags of the element; in the XML file also the speed, which is a number exactly where the depth is not zero. At order one linear interpolation over the cells gives the solution everywhere. The files do not determine the solution at order two with one subdivision (two solutions, one file), cells are not all counter-clockwise from two subdivisions on, and points are printed with six digits: the relative error stays below 5e-6, but a small element far from the origin collapses to one point. Coefficient files of a run, read back, hold exactly the steps 0, f, 2f and so on, with time, identifiers and coefficients in order, whatever the file held before; a frequency of zero divides by zero.", "quantifier": "for all subdivision numbers, orders, meshes, solutions, printing functions, frequencies, numbers of steps and previous file contents", "why_tests_cant": "no test reads an output file back; the loss of resolution and of digits depends on order and coordinates", "anchors": ["source/shape/shapes_2D/shape_straighttriangle.cpp: StraightTriangle::GetVTK", "source/master/elements_2D/master_triangle.tpp: Triangle::VTKPostCell, Triangle::VTKPostPoint", "source/geometry/element.hpp: Element::InitializeVTK, Element::WriteCellDataVTK, Element::WritePointDataVTK", "source/simulation/writer.hpp: Writer::WriteOutput, Writer::InitializeMeshGeometryVTK, Writer::InitializeMeshGeometryVTU", "source/problem/SWE/problem_postprocessor/swe_post_write_vtk.hpp: write_VTK_data", "source/problem/SWE/problem_postprocessor/swe_post_write_vtu.hpp: write_VTU_data", "source/problem/SWE/problem_postprocessor/swe_post_write_modal.hpp: write_modal_data"]}
{"id": "C64", "title": "Geographic input: projection, distortion factor, Coriolis parameter, Manning file", "statement": "The map projection keeps identifiers, bathymetry and orientation of all triangles, scales areas by one constant and keeps different nodes apart as long as its origin is at least 1e-11 degrees away from the poles; lengths along meridians are those on the sphere, lengths along parallels are those on the sphere times the factor of the solver, and rates of change per metre eastwards are those of the map times the factor. The factor at every Gauss point inside an element, on either side of every face with common nodes, and on faces between processors is that of the point itself; it is positive and bounded away from the poles and 1 without projection. The Coriolis parameter of an element is that of the mean latitude of its nodes, between those of the extreme latitudes, within 2e-15 per degree of the exact one. The friction coefficient of an element is g times the square of the mean of its nodes' Manning coefficients, whatever the order of rows and elements. Violated: an origin at latitude 90 mirrors the mesh, and a node at the pole has a factor below -1e12, because the constant for pi is too large; the far side of a levee with sides apart gets the factor of the near side in serial but its own in a distributed run; a spherical mesh without projection entry is mapped but not corrected, so lengths at 60 degrees are off by more than 1.9; the latitude given with a cartesian mesh is not used for Coriolis; nodes missing in the Manning file, and all nodes listed after an unreadable line, have coefficient zero without a message.", "quantifier": "for all meshes, projections, quadrature rules, Manning files and latitudes", "why_tests_cant": "depends on latitude and on the position of the mesh; the violations give plausible numbers", "anchors": ["source/problem/SWE/problem_preprocessor/swe_pre_preprocess_mesh.hpp: preprocess_mesh_data", "source/problem/SWE/problem_preprocessor/swe_pre_init_data.hpp: initialize_data_serial", "source/problem/SWE/problem_input/swe_inputs.hpp: SphericalProjection", "source/general_definitions.hpp: PI"]}
{"id": "C65", "title": "The reference solutions of the examples and the equations of the solver", "statement": "The flux and the source of the code, with any function source, are the shallow-water equations of the textbooks over every bed that has a slope. The manufactured solution solves them with the source function of the example at every time and place if and only if gravity is 1 and the depth is 2; initial, boundary and comparison values are the same function and the water is deeper than 2. The initial state of the parabolic bowl belongs, for every gravity, to an oscillating solution that satisfies the equations wherever there is water and returns after 2 pi / sqrt(8 g alpha); its shore is the circle named in the comment. The solitary wave of the dispersive example solves the dispersive equations if and only if alpha is 1. Initial coefficients from a function are the quadrature projection of its values at time 0 at the points of the element, exact for what is in the space; function boundaries and sources use the function at the points of the face and element at the time of the stage. Violated: over the depth 1.5 of the mesh generator in the repository the manufactured solution is no solution for any gravity (the test script replaces the depth by 2); with the 1.159 the solver has for alpha the solitary wave is not a solution of the equations it discretises.", "quantifier": "for all times, places, gravities, depths, positive alpha, functions, triangles and quadrature rules", "why_tests_cant": "a run compares with these solutions; whether they are solutions at every point is what it takes for granted", "anchors": ["examples/swe_manufactured_solution/manufactured_swe_source_functions.hpp: source_q", "examples/swe_manufactured_solution/manufactured_swe_true_solution_functions.hpp: true_q", "examples/swe_parabolic_bowl/parabolic_bowl_initial_condition_functions.hpp: ic_q", "examples/gn_analytical_solution/analytical_gn_true_solution_functions.hpp: true_q", "source/problem/Green-Naghdi/gn_definitions.hpp: NDParameters", "mesh_generators/bathymetry.hpp: bathymetry_function", "source/geometry/element.hpp: L2ProjectionF"]}
{"id": "C66", "title": "The distributed implicit HDG solver computes what the serial one does", "statement": "The mesh is divided among units; an interface cut by a rank boundary has a half in each of two units. Different identifiers of the units give its halves opposite directions of the trace basis (equal ones leave the flag uninitialised), so both halves evaluate the same trace at the same point of the edge. After the exchange of the preprocessor every unit holds the trace bathymetry and the initial trace of the serial code, with odd trace coefficients negated where the basis runs against the inner element, and the unit that does not number the edge has the first number of the one that does. For second order the right-hand side of the old time level is the serial one. In each pass, increments solve the linear system of the serial solver if and only if the units' parts solve theirs: element rows, trace rows and, for each cut, the sum of the rows of the two halves. Therefore after any number of passes of the loop every serial iterate has a distributed one with the same states and traces, and the other way round. Every edge is numbered by one unit, so the vector of increments of all ranks has the length and norm of the serial one and the test for convergence gives the same answer: the loop of at most 100 passes stops after the same pass, and whole runs of any number of time steps (without slope limiting) hold the same states and traces.", "quantifier": "for all conforming meshes and divisions of them, orders, quadrature rules symmetric about the middle of a face, states, time levels, numbers of passes and of time steps", "why_tests_cant": "a run on a few ranks compares states up to solver tolerance; the direction of the trace basis only matters for odd degrees and for one of the two numberings of the ranks", "anchors": ["source/problem/SWE/discretization_IHDG/kernels_processor/ihdg_swe_proc_edge_dbound.hpp: local_edge_distributed_kernel, global_edge_distributed_kernel, init_edge_distributed_kernel", "source/problem/SWE/discretization_IHDG/kernels_processor/ihdg_swe_proc_ompi_step.hpp: stage_ompi", "source/problem/SWE/discretization_IHDG/kernels_preprocessor/ihdg_swe_pre_init_global_prob.hpp: initialize_global_problem_parallel_finalize_pre_send, initialize_global_problem_parallel_post_receive", "source/problem/SWE/discretization_IHDG/dist_boundary_conditions/ihdg_swe_dbc_distributed.hpp: ComputeInitTrace, ComputeGlobalKernels", "source/geometry/edge_boundary.hpp: EdgeBoundary", "source/problem/SWE/problem_preprocessor/swe_pre_create_edge_dbound.hpp: create_edge_distributeds", "source/problem/SWE/discretization_IHDG/kernels_processor/ihdg_swe_proc_ompi_sol_glob_prob.hpp: ompi_solve_global_problem"]}
{"id": "C67", "title": "The distributed Green-Naghdi correction computes what the serial one does", "statement": "The mesh is divided among units; an interface cut by a rank boundary has a half in each of two units. After the exchanges of the preprocessor and of the correction every unit holds, on its elements, the serial projected derivatives of bathymetry up to the third, of the surface (first) and of the velocity up to the second; on each half it holds the serial traces of bathymetry gradient and depth at the same points of the edge, and whether the element across is wet. Assembly of the correction ends in serial and in every unit; the matrices and the source of a unit's elements and own edges are the serial ones, those of a half have the signs of its trace basis, and those of trace against trace add up over the wet halves to the serial one: half each if both sides are wet, the wall matrix in the wet unit alone if the other side is dry. Corrections and traces solve the serial equations (element rows and flux balances) if and only if the units' parts of them solve theirs, with the balances of the two halves of a cut added.", "quantifier": "for all conforming meshes without levees next to water, divisions of them, orders, quadrature rules symmetric about the middle of a face, states, and wet and dry elements", "why_tests_cant": "the correction is a linear system with derivatives of third order; a wrong mean or sign on a cut changes it by amounts like those of the discretization error, and only with some ranks, orders and wet or dry neighbours", "anchors": ["source/problem/Green-Naghdi/discretization_EHDG/kernels_preprocessor/grad_methods/projection_dbath_ompi.hpp: compute_bathymetry_derivatives_ompi", "source/problem/Green-Naghdi/discretization_EHDG/kernels_processor/grad_methods/projection_derivatives_ompi.hpp: compute_derivatives_ompi", "source/problem/Green-Naghdi/discretization_EHDG/kernels_processor/ehdg_gn_proc_ompi_step.hpp: dispersive_correction_ompi", "source/problem/Green-Naghdi/discretization_EHDG/kernels_processor/ehdg_gn_proc_edge_dbound.hpp: local_dc_edge_distributed_kernel, global_dc_edge_distributed_kernel", "source/problem/Green-Naghdi/discretization_EHDG/dist_boundary_conditions/ehdg_gn_dbc_distributed.hpp: ComputeGlobalKernelsDC"]}
{"id": "C68", "title": "The unknowns of the distributed Green-Naghdi correction are numbered once, and the assembled system does not depend on the division", "statement": "At every stage with wetting and drying the distributed correction numbers the edges anew. Whatever numbers were stored before, the edges with a wet side get the numbers 0 to n-1, each once, in the order of localities, units and edges, so that the rows of a locality are consecutive; a cut is numbered by its lower side even if that side is dry; every half with a wet side, and every face of a wet element, knows the number of its edge, and the half finds the value of its edge at its place of the scattered solution. The assembled row and right hand side of an edge are the sum of the terms of its wet sides on the whole mesh. On the undivided mesh the numbers are those of the serial solver, and the numbering of the preprocessor, which ignores wet and dry, numbers all edges so that every one can be read. X solves the system of one division if and only if the same values of the edges solve that of any other, the undivided mesh included; five blocks per row, four of them remote, are enough. Violated: an edge of dry elements keeps its old place and is read all the same, past the end of the shortened solution; a locality without wet edges takes the front of an empty vector.", "quantifier": "for all divisions of a mesh into localities and units, all wet and dry elements, all numbers stored before and all values of the blocks, with fewer than 2^32 edges", "why_tests_cant": "a number given twice or not at all appears only for some patterns of dry elements along rank boundaries, and a stale place reads beyond the vector only after elements have dried; the examples rarely run this on several ranks", "anchors": ["source/problem/Green-Naghdi/discretization_EHDG/kernels_processor/ehdg_gn_proc_ompi_sol_glob_prob.hpp: ompi_solve_global_dc_problem, reset_PETSC_solver", "source/problem/Green-Naghdi/discretization_EHDG/kernels_processor/ehdg_gn_proc_serial_sol_glob_prob.hpp: serial_solve_global_dc_problem", "source/problem/Green-Naghdi/discretization_EHDG/kernels_preprocessor/ehdg_gn_pre_init_global_prob.hpp: initialize_global_dc_problem_parallel_pre_send, initialize_global_dc_problem_parallel_finalize_pre_send, initialize_global_dc_problem_parallel_post_receive", "source/problem/Green-Naghdi/discretization_EHDG/kernels_preprocessor/ehdg_gn_pre_ompi.hpp: preprocessor_ompi"]}
{"id": "C69", "title": "No NaN is written: a run with a NaN in its solution is aborted before the output", "statement": "After every stage the coefficients of surface elevation and discharge of all elements are searched; the run is aborted if and only if one of them is NaN, and the message names the first variable that has one. Hence, whatever the kernels and the post-processing compute, no step that can be written after the start holds a NaN and every stage starts from a state without one, in explicit and implicit shallow-water runs and in runs with the dispersive correction, whose own stages search nothing. Without post-processing a NaN computed in a stage, or by the implicit iteration, or left by the correction, stops the run in that stage, respectively in the next shallow-water stage, even if its weight in the scheme is zero. With slope limiting, whatever slopes it computes, this still holds; with wetting and drying it holds for every NaN in the surface elevation, and for a NaN in the discharge of an element that stays wet with mean depth above the limit. Violated: wetting and drying, done before the search, replaces a discharge of NaN by zero in shallow elements, even in ones that stay wet, and the run goes on; a NaN among the slopes of the limiter is dropped and the variable left unlimited; infinite values are not found and are written.", "quantifier": "for all meshes, orders, Runge-Kutta schemes and numbers of steps, all kernels and post-processing, all binary64 values", "why_tests_cant": "NaN arises in runs that go wrong in ways no test foresees; that every one of them is caught before the output, and which ones wetting and drying hides, depends on IEEE arithmetic and on the order of post-processing and search for all values", "anchors": ["source/problem/SWE/problem_postprocessor/swe_post_scrutinize.hpp: scrutinize_solution", "source/problem/SWE/problem_postprocessor/swe_post_wet_dry.hpp: wetting_drying_kernel", "source/problem/SWE/discretization_RKDG/kernels_processor/rkdg_swe_proc_serial_step.hpp: stage_serial, step_serial", "source/problem/SWE/discretization_EHDG/kernels_processor/ehdg_swe_proc_serial_step.hpp: stage_serial", "source/problem/Green-Naghdi/discretization_EHDG/kernels_processor/ehdg_gn_proc_serial_step.hpp: step_serial, dispersive_correction_serial", "source/simulation/stepper/explicit_ssp_rk_stepper.hpp: ESSPRKStepper::UpdateState", "source/problem/SWE/problem_slope_limiter/swe_CS_slope_limiter.hpp: slope_limiting_kernel", "source/problem/SWE/discretization_IHDG/kernels_processor/ihdg_swe_proc_serial_step.hpp: stage_serial, step_serial"]}

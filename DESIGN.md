# Formal model of dgswemv2 in Rocq (Coq 8.16.1)

## Scope and approach
The source tree in /repo is read as text. Functions are transcribed into Gallina, one definition per C++
function (or loop body), each with a comment citing file and lines and listing simplifications. Properties
are stated against small independent specifications and proved for all inputs, sizes and histories they
range over; all proofs are accepted by the kernel.

Layout of `rocq/theories`:
* `Model*.v` - definitions transcribed from the code, no proofs.
* `Spec*.v` - small specifications that do not mention model helpers.
* `Lemmas*.v` - proofs.
* `Props*.v` - the property theorems, closed by `exact` or a short script that applies other theorems or
  supplies a witness, each followed by `Print Assumptions`, with `Example`s that show a concrete,
  non-trivial instance of the hypotheses.

Where the code does not have a property, the property's statement says what holds and what is violated;
the violation is a theorem named `..._refuted` with a witness. Nothing is left partial at the moment.

## Numbers and outcomes
* `double` is a real number (`R`); some definitions are generic over the type class `Num` (operations only)
  so that examples can be computed over `Q`. Rounding, overflow, signed zeros, infinities and NaN are not
  modelled. Exceptions: text conversion of doubles (ModelStream) works on binary significands with correct
  rounding; the search for NaN (ModelScrut) works on binary64 values with infinities and NaN;
  a division by zero that the code really performs has an explicit outcome in the model;
  decimal literals of quadrature tables are rounded to 53 bits where symmetry is at stake (C55).
* `uint` is `nat`/`N`/`Z`; wrap-around is written out where it can happen.
* `Outcome.v`: `Ok`, `Throw` (exception, abort or exit), `UB` (out-of-range access, uninitialised value,
  mismatched matrix product). Library functions with their own contracts are parameters or oracles.

## Trusted base
* the Coq kernel, including its virtual machine (`vm_compute` is used for table checks);
* the axioms of the standard library that `Print Assumptions` lists:
  A = ClassicalDedekindReals.sig_forall_dec, B = ClassicalDedekindReals.sig_not_dec,
  C = Classical_Prop.classic, F = FunctionalExtensionality.functional_extensionality_dep.
  They come with the real numbers and with Coquelicot, which adds none of its own. No other axiom is used,
  no kernel check is switched off, there are no native integers or floats;
* the transcription from C++ to Gallina, by hand, and what its comments say is left out;
* METIS, MPI delivery, PETSc, Eigen and the file system, which appear as arbitrary functions or under the
  contract stated in the model.

Number of property theorems by the axioms they use: ABF: 150, ABCF: 118, none: 113, AF: 79, A: 12.

## Modelled code

* **ModelBasis.v** - Modal bases: basis/polynomials/basis_polynomials.cpp, basis/bases_2D/basis_dubiner_2D.cpp and basis/bases_1D/basis_legendre_1D.cpp. Reals for double; every routine treats the points of its argument one by one, so the model takes one point. Unsigned (32-bit) integer arithmetic is kept, with wrap-around.
* **ModelBcis.v** - Harmonic forcing and levee data: problem/SWE/problem_input/swe_inputs.cpp lines 212-315 (read_bcis), swe_inputs.hpp lines 25-84, the lookups in problem_preprocessor/swe_pre_create_bound.hpp, swe_pre_create_intface.hpp and swe_pre_create_dbound.hpp, and the classes Tide and Flow of the three discretizations. Reals for double. A line of the file is its list of numbers; further numbers on a line are ignored, as by the stream. Lines that are too short and files that end early are outside the model ([None]): the code then goes on with the values of earlier lines.
* **ModelComm.v** - Model of the message buffers between submeshes: layout, exchange, contents. Buffers are lists of numbers; one rank boundary is modelled at a time (each has its own pair of buffers per communication type). MPI itself is modelled as: the receive buffer of a rank boundary ends up equal to the send buffer of its partner for the same communication type.
* **ModelCond.v** - Newton update of the implicit HDG solver by static condensation. Code: source/problem/SWE/discretization_IHDG/kernels_processor/ ihdg_swe_proc_serial_sol_glob_prob.hpp (serial_solve_global_problem) ihdg_swe_proc_ompi_sol_glob_prob.hpp (ompi_solve_global_problem) Matrices and vectors are functions of their indices; every use carries its dimensions. Elements, boundaries and edges are C++ references, here indices (element number, bound_id) into a table. [inverse] (Eigen) and the sparse solvers (Eigen::SparseLU, PETSc KSP) are library code: they are parameters. With Blaze the serial solver prints a message and calls abort() (use_blaze.hpp lines 234-245), so only the Eigen variant is modelled.
* **ModelDbmd.v** - The text of the distributed boundary files: /repo/partitioner/write_distributed_interfaces.cpp lines 85-103 and /repo/source/preprocessor/mesh_metadata.hpp lines 96-112 (writing), mesh_metadata.cpp lines 150-224 (reading).
* **ModelDist.v** - The distributed interface files: what the partitioner writes and what a parallel run reads back. Files are lists of records; the numbers' text form is not modelled.
* **ModelDofs.v** - Model of the numbering of global unknowns in the IHDG scheme. Edges are represented by their number of polynomial degrees of freedom and, for distributed edges, the (locality, submesh) pairs on both sides and the position in the rank boundary; the matrices resized in the same loops are not modelled. The value exchanged for a distributed edge goes through the message of ModelComm; here the cell with key (sender, receiver, position) holds it.
* **ModelEHDG.v** - One stage and one step of the serial explicit HDG shallow-water solver on a whole mesh: problem/SWE/discretization_EHDG/kernels_processor/ ehdg_swe_proc_serial_step.hpp with the kernels it calls. Mesh, configuration, state and conventions of ModelStep; the same parts are left out (NaN check lines 76-83, input parsing, output). The buffers of the faces are kept from stage to stage, as in the code: what a kernel does not write stays.
* **ModelEPar.v** - The distributed explicit HDG shallow-water solver: preprocessing of the edges on rank boundaries and one stage, problem/SWE/discretization_EHDG/kernels_preprocessor/ehdg_swe_pre_init_global_prob.hpp, kernels_processor/ehdg_swe_proc_ompi_step.hpp lines 32-156 and the kernels for distributed faces. Units, rank boundaries, delivery and what is left out are as in ModelPar; communication types are 1 = init_global_prob, 2 = bound_state, 3 = baryctr_state.
* **ModelExamples.v** - The problem functions of the examples (copied over the problem_function_files by the build scripts of /repo/examples) and the initial state from such a function. Reals for double; exp, sin, cos, sqrt and cosh are those of the reals.
* **ModelFort.v** - ADCIRC mesh files: /repo/source/preprocessor/ADCIRC_reader/adcirc_format.cpp lines 3-147 (reading) and 150-212 (writing). The unordered maps of nodes and elements are lists: in order of insertion when read, in iteration order when written. IBTYPE, NBVV and the maps IBCONN, BARINTH, BARINCFSB and BARINCFSP are kept per boundary. The members NOPE, NBOU and NGEN equal the lengths of the lists read and are not kept apart. A member that may be without value is an option. Failing to allocate the vectors is not modelled.
* **ModelGN.v** - Dispersive correction of the Green-Naghdi solver, serial: problem/Green-Naghdi/discretization_EHDG/kernels_processor/ehdg_gn_proc_serial_step.hpp with the kernels it calls, for the default gradient method (D_PROJECTION, B_PROJECTION) and the default shallow-water solver SWE_SIM = SWE::RKDG (ModelStep). Reals for double, straight triangles, one order for all elements, matrix products as sums in index order. An interface is an edge with two sides, a boundary an edge with one; edges are numbered interfaces first, then boundaries. Values at Gauss points are recomputed instead of stored. [inverse], the dense [solve_sle] (Eigen's fullPivLu) and the sparse solver are library code: parameters. Input parsing and output are left out.
* **ModelGNum.v** - Numbering, assembly and read-back of the trace unknowns of the Green-Naghdi correction on several localities with wetting and drying: problem/Green-Naghdi/discretization_EHDG/kernels_processor/ehdg_gn_proc_ompi_sol_glob_prob.hpp lines 147-380 and reset_PETSC_solver, lines 386-635. A unit is the list of its edges in the order in which the code visits them (interfaces, boundaries, distributed edges), each with the three numbers stored for it. Elements, faces and edges are named by numbers that are unique on the whole mesh. One unknown stands for the block of unknowns of an edge: the code numbers blocks (VecSetBlockSize, MatSetValuesBlocked). A message of an edge is found by the two sides and the edge. The values of the blocks are parameters; creation of the PETSc objects and the solver itself are left out.
* **ModelGPar.v** - The distributed Green-Naghdi correction: derivatives and the blocks of the linear system of a simulation unit, problem/Green-Naghdi/discretization_EHDG/kernels_processor/ehdg_gn_proc_ompi_step.hpp lines 66-104 with the kernels for distributed edges, for the default gradient method (D_PROJECTION, B_PROJECTION). As in ModelIPar elements and edges keep the numbers they have on the undivided mesh, and the geometry is read from the same record as in the serial model, of which only the entries of the unit's own elements are read. A distributed edge is a boundary with one side; its trace basis is that of ModelIPar. Condensation inside a unit is that of the serial solver (ModelGN); the parallel assembly and solution of the condensed system (PETSc) are left out, and so are distributed levees.
* **ModelGeo.v** - Geographic input of the shallow-water problem: problem/SWE/problem_preprocessor/swe_pre_preprocess_mesh.hpp lines 6-28 (projection) problem/SWE/problem_preprocessor/swe_pre_init_data.hpp lines 136-163 (distortion factor at distributed boundaries; the others are in ModelInit), lines 166-196 (Manning coefficients), lines 198-211 (Coriolis parameter) Reals for double; pi is the constant of the code. A line of the Manning file is what formatted input makes of it: an identifier and a number, or nothing.
* **ModelGrad.v** - The other gradient methods of the Green-Naghdi solver: least squares (D_LEASTSQUARES) and Green-Gauss (D_GREENGAUSS) slopes at the barycentres, and their reconstruction to linear functions by interpolation (D_RECON_INT), least squares (D_RECON_LS) or averaging at the nodes (D_RECON_AVG): problem/Green-Naghdi/problem_preprocessor/gn_pre_init_data.hpp problem/Green-Naghdi/problem_data_structure/gn_data_derivative.hpp problem/Green-Naghdi/discretization_EHDG/kernels_processor/grad_methods/ {leastsquares,greengauss}_derivatives_serial.hpp, recon_{int,ls,avg}_derivatives.hpp, recon_avg_derivatives_ompi.hpp problem/Green-Naghdi/discretization_EHDG/kernels_preprocessor/ehdg_gn_pre_ompi.hpp Reals for double, straight triangles, one order for all elements. One scalar row at a time: dze, du and ddu (and the bed slopes of the preprocessor) repeat one pattern for every row. The depth rows the same loops refresh are left out. [solve_sle] of a two by two system is library code: a parameter. A face for which the search at lines 49-72 finds no pair keeps what its data held before: nothing (None), and reading that is undefined (a is not initialised by Eigen).
* **ModelIHDG.v** - The Newton system of the implicit HDG shallow-water solver, serial: problem/SWE/discretization_IHDG/kernels_processor/ihdg_swe_proc_serial_step.hpp lines 30-70 with the kernels it calls. Reals for double, straight triangles, one order for all elements, matrix products as sums in index order. Values at Gauss points that a kernel stores for the same edge's next kernel are recomputed instead. Edges are numbered interfaces first, then boundaries. The Levee specialisation (its kernels are empty) and the distributed edges are left out.
* **ModelIPar.v** - The distributed implicit HDG shallow-water solver: preprocessing of the edges on rank boundaries and one Newton pass of a simulation unit, problem/SWE/discretization_IHDG/kernels_preprocessor/ihdg_swe_pre_init_global_prob.hpp lines 106-320, kernels_processor/ihdg_swe_proc_ompi_step.hpp lines 34-91 and the kernels for distributed faces. Elements and edges keep the numbers they have on the undivided mesh, by which the data of a unit are indexed; the geometry is read from the same record as in the serial model, of which only the entries of the unit's own elements are read. Each unit has its own element states, traces and trace bathymetry, also of the edges it shares. Distributed levees are left out: their kernels are empty in the code. The numbering of the global unknowns is in ModelDofs, the assembly and the solution of the global system in ModelCond, the message buffers in ModelComm.
* **ModelIRun.v** - The stopping test of the implicit HDG solver, serial and distributed.
* **ModelInit.v** - Initial data of the shallow-water problem, serial case: problem/SWE/problem_preprocessor/swe_pre_init_data.hpp, initialize_data_serial, for constant initial conditions. Reals for double. Node coordinates are those of the shape (after the constructor), so bathymetry follows the same order. Function initial conditions (line 62) are in ModelExamples. The Manning file (lines 168-195) and the Coriolis parameter (lines 198-210, not read by get_source) are in ModelGeo.
* **ModelInput.v** - * Input files. source/preprocessor/input_parameters.hpp lines 95-261 and 295-435 (InputParameters: read, write), source/problem/SWE/problem_input/swe_inputs.cpp lines 4-210 and 315-441 (SWE::Inputs; GN::Inputs is the same, gn_inputs.hpp lines 10-13), source/simulation/serial/simulation_base.cpp lines 6-26 (and simulation_ompi_base.cpp), partitioner/partitioner.cpp lines 43-109. Simplifications: a file is the tree yaml-cpp makes of it (no sequences, keys unique; emitting a tree and loading it again gives the tree); conversions between scalars and doubles, unsigned integers, booleans and times are parameters; warnings on std::cerr left out; the default values of fields of a disabled feature are left out.
* **ModelIntegration.v** - Quadrature rules: integration/integrations_1D/integration_gausslegendre_1D.cpp and integration/integrations_2D/integration_dunavant_2D.cpp. The decimal literals are taken at face value; reals for double in what is computed from them. The tables are copied literally, weights and points side by side in the order of the source. [None] stands for exit(1).
* **ModelJac.v** - Flux Jacobians, characteristic decomposition and source terms at one Gauss point. Reals; [g] is Global::g. The routines loop over the columns of their arguments and treat each column independently.
* **ModelMesh.v** - Mesh topology: ADCIRC boundary lookup, mesh metadata construction, raw boundaries, creation of interfaces and boundaries. Unsigned 32-bit ids are N; coordinates are not part of this file.
* **ModelMeta.v** - Mesh metadata files: mesh_metadata.hpp and mesh_metadata.cpp in /repo/source/preprocessor. The unordered maps are lists in iteration order when written and functions from keys when read.
* **ModelPar.v** - One stage of the distributed RKDG shallow-water solver: problem/SWE/discretization_RKDG/kernels_processor/rkdg_swe_proc_ompi_step.hpp lines 33-133 with the kernels for distributed faces. Each submesh (simulation unit) has its own state and its own send buffers; it changes nothing else, so the order in which units and threads run inside a phase does not matter, and only the messages tie the phases together. The receive buffer of a rank boundary equals, after WaitAllReceives, the send buffer of its partner for the same communication type (as in ModelComm). Elements keep their global number, so a unit's state is indexed by it; the geometry comes from the same record as in the serial model, of which only the entries of the unit's own elements are read. Input, output, the NaN check and check_trouble are left out as in ModelStep.
* **ModelPart.v** - The mesh partitioner. Element, node and submesh ids are N; the code stores them as uint and, in the graph, as int (ids below 2^31 are assumed). A std::unordered_map or unordered_set is the list of its entries in iteration order; where the iteration order of such a container can matter, the order is an argument.
* **ModelPi.v** - The constant of general_definitions.hpp line 227, twelve digits.
* **ModelQuad.v** - The quadrilateral mesh generator, /repo/mesh_generators/quad_mesh_generator.cpp. Unsigned arithmetic is modulo 2^32: [u32] is applied to whole expressions of additions and multiplications, which gives the same result as wrapping after every operation. Loop counters themselves are assumed not to wrap. Coordinates are in the number type T; bathymetry_function is a parameter.
* **ModelQuadFile.v** - The file of the quadrilateral mesh generator, /repo/mesh_generators/quad_mesh_generator.cpp lines 162-276. Coordinates are given.
* **ModelRun.v** - Run control: number of steps, output schedule, thread split, MPI tags, file names of partitioned runs, meteorological input.
* **ModelSWE.v** - Shallow-water fluxes and boundary fluxes (pointwise and per face). Vectors of the three conserved variables, the auxiliary variables and the unit normal are records; a [HybMatrix<double,3>] with one column per Gauss point is a function from the Gauss point number to a record.
* **ModelScrut.v** - The search for NaN after every stage, in double precision: problem/SWE/problem_postprocessor/swe_post_scrutinize.hpp with the stages that call it. Doubles are the binary64 values of the standard library's SpecFloat (rounding to nearest even, infinities, one NaN). Rows: 0 ze, 1 qx, 2 qy.
* **ModelShape.v** - Straight triangles: shape/shapes_2D/shape_straighttriangle.cpp, the boundary coordinates of the master triangle (master/elements_2D/ master_triangle.tpp) and the geometric factors computed by Element, Boundary and Interface. Reals; every routine that takes a list of points treats them one by one, so the model takes one point. Nodal coordinates are Point<3>; the third coordinate (bathymetry) is never read here, except that the constructor swaps whole points, so a node is a pair. Determinant and inverse of a 2x2 matrix are the linear algebra library's; they are taken to be the textbook formulas. std::hypot(x,y) and sqrt(pow(x,2.0)+pow(y,2.0)) are the exact square root.
* **ModelSlope.v** - Cockburn-Shu slope limiter: problem/SWE/problem_slope_limiter/swe_CS_slope_limiter.hpp and the geometric coefficients of problem/SWE/problem_preprocessor/swe_pre_init_data.hpp lines 252-325 (366-387 repeat them for elements with distributed faces). Reals for double. Variable rows 0 ze, 1 qx, 2 qy; faces and vertices 0, 1, 2. The sign bit of zero is taken as positive. For depth h <= 0 at the centre the code computes NaN; the model's values then mean nothing and the theorems that look at them ask for h > 0.
* **ModelSplitMet.v** - * Meteorological input of a split (Green-Naghdi) run. source/problem/Green-Naghdi/discretization_EHDG/kernels_processor/ehdg_gn_proc_serial_step.hpp lines 10-45 with source/simulation/stepper/second_strang_stepper.hpp lines 16-31 and source/problem/SWE/problem_parser/swe_parser.hpp lines 36-169 (ehdg_gn_proc_ompi_step.hpp lines 10-60 makes the same calls on the parser of every unit). Both steppers go through one parser, hence one store of snapshots and one meteo_parse_frequency. Simplification: between two calls only the advance of the stepper is kept; the stages themselves do not touch the parser.
* **ModelStep.v** - One stage and one step of the serial RKDG shallow-water solver on a whole mesh: problem/SWE/discretization_RKDG/kernels_processor/rkdg_swe_proc_serial_step.hpp with the kernels it calls. Reals for double. Straight triangles, one order for all elements. Matrix products are sums in index order. The NaN check (lines 59-66), input parsing (lines 16-18), output and check_trouble (whose result no shallow-water kernel reads; ModelTrouble, ModelGN) are left out.
* **ModelStepper.v** - Time steppers. Coefficients are exact rationals: the decimal literals of the source are taken at face value (not rounded to double) and quotients such as 1./3. are exact. The clock is real-valued.
* **ModelStream.v** - Text input and output of the C++ standard library, as far as the mesh files use it: std::ostream operator<< for unsigned integers, characters and doubles, std::istream operator>>, ignore and std::getline (C++ standard [istream], [facet.num.get.virtuals], [ostream.formatted]; in the C locale). A character is its code, a text a list of codes. An input stream is the text not yet read, the end-of-file flag and the fail flag (badbit is not modelled). A read returns the value stored in its variable, or [None] if the variable is left alone.
* **ModelTrouble.v** - Troubled cell indicator, problem/SWE/problem_slope_limiter/swe_trouble_check.hpp, called from swe_CS_sl_serial.hpp line 20 and swe_CS_sl_ompi.hpp line 64 after the prepare kernels. Its result slope_limit_state.troubled is read by the Green-Naghdi correction only (ehdg_gn_proc_volume.hpp line 99). Reals for double; a quotient with denominator zero compares as in IEEE arithmetic. Elements are numbered by their ID; neighbour IDs outside the mesh (DEFAULT_ID, or an element of another submesh) are numbers not below m_n.
* **ModelVtk.v** - Output of the solution for visualisation and as coefficients: shape/shapes_2D/shape_straighttriangle.cpp lines 297-350 (GetVTK) master/elements_2D/master_triangle.tpp lines 64-68, 154-195 (VTKPostCell, VTKPostPoint) geometry/element.hpp lines 507-533 (InitializeVTK, WriteCellDataVTK, WritePointDataVTK) simulation/writer.hpp lines 100-375 (geometry, merging of the pieces, modal output) problem/SWE/problem_postprocessor/swe_post_write_{vtk,vtu,modal}.hpp Reals for double; what a printed double or float becomes is a parameter. A file is its list of tokens: white space, and the type and format attributes of the XML arrays, are left out. Numbers of points and cells stay below 2^32. One order and straight triangles. The existence checks of files just written (lines 130-138, 160-174) are left out.
* **ModelWetDry.v** - Wetting and drying of one element: problem/SWE/problem_postprocessor/swe_post_wet_dry.hpp lines 5-145 and problem/SWE/problem_preprocessor/swe_pre_init_data.hpp lines 213-250. Reals for double. Elements have three vertices (the code's index 3 - max - min assumes it too). ComputeLinearUvrtx is the identity (master_triangle.tpp lines 148-152). Variable rows: 0 ze, 1 qx, 2 qy.

## Not modelled
* `problem/Green-Naghdi`: the distributed correction beyond C67 and C68 (the PETSc solver, other gradient methods except the pairs of neighbours and averages of C62),
  the buffer file; the parallel linear solver (PETSc) of the distributed HDG solvers beyond numbering, assembly and the
  exact solution of the system; the levee kernels of the HDG solvers (they are empty in the code).
* `simulation/hpx`, HPX communicator and load balancer; the models of threads and messages are for MPI/OpenMP.
* Output beyond C63 (Green-Naghdi fields, log files, file system checks); `problem_postprocessor` error norms except the
  quadrature of the L2 error (C55).
* The YAML library itself (C60 starts from the tree of a file), `swe_parser` beyond the meteorological window.
* `utilities`: linear-algebra wrappers (taken to be the textbook operations), tuples and heterogeneous
  containers (taken to be the lists they hold), file-name helpers beyond C24.
* Compiler, hardware, memory limits, floating-point rounding (see above; doubles are modelled in C69 and in the text of numbers).


## Properties
For each property: how it is modelled and proved, what its claim in MANIFEST.json notes, and its theorems with the axioms each uses (letters as above, - for none).

### C01 Internal interface fluxes conserve mass for every wet/dry combination (proved)
Model and proof: Pointwise LLF flux, land flux and the per-Gauss-point branch of the interface specialisation as functions over R (generic numeric record); sum of the two mass fluxes shown zero in all branches; list version for any number of Gauss points.
Note: mass cancels at matching Gauss points for every wet/dry combination and any number of points; all components when both wet; no outflow from a dry element beyond the 1e-12 flux threshold

Theorems: C01_interface_mass_conserved [ABF], C01_interface_wet_all_cancel [ABF], C01_no_outflow_from_dry [ABF].

### C02 The numerical flux is consistent and independent of which side is called interior (proved)
Model and proof: Same model; identities by ring/field after case split of max; refutation with sp = 2.
Note: consistency and side-independence for spherical factor 1; violation in spherical coordinates proved with a witness

Theorems: C02_consistent [ABF], C02_swap_sides [ABF], C02_local_lax_friedrichs [ABF], C02_flows_downhill [ABF], C02_analytic_flux [ABF], C02_spherical_consistency_refuted [ABF].

### C03 Land boundaries are impermeable (proved)
Model and proof: Same model plus EHDG land trace.
Note: RKDG and EHDG walls, spherical factor 1; in spherical coordinates the RKDG wall leaks (refuted with witness)

Theorems: C03_land_impermeable [ABF], C03_land_exterior_state [ABF], C03_ehdg_land_impermeable [ABF], C03_spherical_refuted [ABF].

### C04 Flux Jacobians are the derivatives of the fluxes (proved)
Model and proof: Flux as functions of (ze,qx,qy) with h = ze + bath; is_derive (Coquelicot).
Note: directional and normal fluxes; Coquelicot is_derive; needs nonzero depth only

Theorems: C04_flux_jacobians [ABCF], C04_normal_flux_jacobian [ABCF], C04_normal_combination [ABF].

### C05 Characteristic decomposition of the normal Jacobian (proved)
Model and proof: Matrices as 3x3 records; field after c^2 = g h; is_derive for parts.
Note: derivatives of |A|, A+ and A- where no eigenvalue vanishes; derivatives of A everywhere with positive depth

Theorems: C05_eigenvectors_inverse [ABF], C05_decomposition [ABF], C05_upwind_parts [ABF], C05_absolute_value [ABF], C05_absolute_value_sign [ABF], C05_parts_sign [ABF], C05_dA [ABCF], C05_dabsA [ABCF], C05_dAplus [ABCF], C05_dAminus [ABCF].

### C06 Stabilization parameter bounds the wave speeds and its derivatives are exact (proved)
Model and proof: tau as scalar; Rabs cases; is_derive.
Note: bound is attained; derivative claim fails at zero normal velocity (witness); gravity argument of the overload is ignored (witness)

Theorems: C06_tau_bounds_eigenvalues [ABF], C06_tau_attained [ABF], C06_tau_derivatives [ABCF], C06_derivative_at_rest_refuted [ABF], C06_gravity_argument_refuted [ABF].

### C07 Wetting and drying treatment never loses water and never leaves negative depth (proved)
Model and proof: Vertex-value kernel as a total function on three vertices; case analysis with lra.
Note: reals; three vertices; water creation below the threshold, at initialisation, and order zero are refuted by witness

Theorems: C07_water [ABF], C07_wet_unchanged [ABF], C07_all_dry [ABF], C07_partly_dry [ABF], C07_linear_after [ABF], C07_initial [ABF], C07_bath_min [AF], C07_average_refuted [ABF], C07_initial_average_refuted [ABF], C07_order_zero_refuted [AF].

### C08 Slope limiting keeps cell averages (proved)
Model and proof: Limiter on three edges; scaling lemma sum = 0; T matrix row sums.
Note: reals; NaN for non-positive centre depth not modelled (exactness theorems ask for positive depth); boundary behaviour and positivity refuted by witness

Theorems: C08_start_data [ABF], C08_mean [ABF], C08_skip [ABF], C08_unlimited [ABF], C08_result [ABF], C08_minmod [AF], C08_alpha [AF], C08_geometry [ABF], C08_linear_exact [ABF], C08_neighbours [-], C08_linear_at_boundary_refuted [ABF], C08_positive_depth_refuted [ABF].

### C09 Step, stage and clock bookkeeping of the explicit stepper (proved)
Model and proof: State machine; induction on number of increments.
Note: explicit stepper counters and clock, tanh ramp range and value, implicit stepper counters, clock and ramp levels; exact real arithmetic for the clock

Theorems: C09_step_stage_clock [ABF], C09_ramp [ABCF], C09_implicit_clock [ABF], C09_implicit_ramp [ABF], C09_implicit_scheme [-].

### C10 Runge-Kutta stages form convex combinations and keep linear invariants (proved)
Model and proof: Coefficient tables as rationals; forallb by vm_compute; linear functional by induction on stages.
Note: coefficients as the decimal literals of the source; the step includes the final swap; linear invariants, constant-rate balance and strong stability for all states and right-hand sides

Theorems: C10_supported_schemes [-], C10_coefficients [-], C10_step_is_shu_osher [AF], C10_linear_invariant [AF], C10_linear_balance [AF], C10_strong_stability [AF], C10_strong_stability_cfl [AF].

### C11 Runge-Kutta schemes have their advertised order (proved)
Model and proof: Butcher form from the tables; rational computation.
Note: Butcher form derived from the Shu-Osher tables; all rooted-tree conditions up to order p within 1e-10; linear test polynomial

Theorems: C11_order_conditions [AF], C11_linear_test [AF].

### C12 Stage times match the stage states (proved)
Model and proof: crk/drk loops; compared with the abscissae of the Butcher form by computation; the tables that disagree are listed and refuted.
Note: the property is violated: refuted for every scheme with two or more stages (reported stage time is the start of the step); the exact reported time is proved

Theorems: C12_reported_time [ABF], C12_stage_time_refuted [ABF].

### C13 Boundary edge lookup finds exactly the consecutive node pairs (proved)
Model and proof: Loop over list as recursion; spec: exists split l = a ++ [x;y] ++ b.
Note: exact characterisation for lists with repetitions

Theorems: C13_has_edge_exact [-].

### C14 Element neighbours are mutual (proved)
Model and proof: Edge dictionary as finite map fold; spec on triangle lists.
Note: any iteration order of both hash maps; both directions, unshared faces, levees, totality

Theorems: C14_shared_faces_name_each_other [-], C14_internal_faces_mutual [-], C14_unshared_faces_carry_their_type [-], C14_levee_faces_mutual [-], C14_construction_succeeds [-].

### C15 Every internal face becomes exactly one interface (proved)
Model and proof: Loop over ordered map of raw boundaries; permutation spec.
Note: the loop alone for any value type, and end to end from the ADCIRC mesh; silent drop and double edges refuted with witnesses

Theorems: C15_interface_loop_exact [-], C15_internal_interfaces [-], C15_levee_interfaces [-], C15_boundary_faces [-], C15_collection_succeeds [-], C15_first_face_kept [-], C15_unmatched_face_dropped_refuted [-], C15_meeting_twice_refuted [-].

### C16 Generated quadrilateral meshes are conforming triangulations (proved)
Model and proof: Generator patterns as list functions; counting edges for all m n.
Note: Node loop, the three element patterns, the four boundary lists and their codes modelled with 32-bit wrap-around; positions over the reals; the text file is C47.

Theorems: C16_complete [ABF], C16_conforming [ABF], C16_boundary_lists [ABF], C16_counter_clockwise [ABF], C16_area [ABF], C16_readable [ABF], C16_dent_refuted [ABF], C16_wrap_refuted [ABF].

### C17 Partitioning neither loses nor duplicates elements (proved)
Model and proof: Submesh assembly for arbitrary assignment function.
Note: every METIS answer, every iteration order of the hash maps, several ranks per node; empty mesh reads through the end iterator of the weight map (witness)

Theorems: C17_partition_keeps_elements [ABF], C17_empty_mesh_refuted [ABF].

### C18 Distributed interface files are complete and consistent (proved)
Model and proof: Set of cut faces; per-pair files; reader.
Note: any iteration order of the sets; written and read back per submesh; needs loc + num_loc*sub < 2^32; elements meeting in two faces refuted with a witness; numbers' text form not modelled

Theorems: C18_files_complete [-], C18_files_match [-], C18_partition_to_files [ABF], C18_double_neighbour_refuted [-].

### C19 Message buffers hold every boundary message without overlap (proved)
Model and proof: Accumulated offsets; buffers as lists; get-after-set laws.
Note: Layout, exchange and contents of the three schemes' messages, for any number of faces and Gauss points as long as buffer sizes stay below 2^32; partner layouts agree by C18. MPI modelled as copying the partner's send buffer. Dry depth and empty rank boundary list are refuted by witness.

Theorems: C19_regions [-], C19_messages_fit [-], C19_exchange [-], C19_initial_buffers [-], C19_same_layout [-], C19_barycentre_values [ABF], C19_wet_values [ABF], C19_state_values [ABF], C19_slope_values [ABF], C19_ehdg_init_values [ABF], C19_ihdg_init_values [ABF], C19_dry_depth_refuted [ABF], C19_no_neighbours_refuted [-].

### C20 MPI tags identify the submesh pair (proved)
Model and proof: 16-bit shifts in Z; injectivity; witness.
Note: all 16-bit ids; collision witness from id 256; witness that tags leave the range every MPI guarantees

Theorems: C20_partner_tags_match [-], C20_tags_distinct [-], C20_tag_value [-], C20_collision_refuted [-], C20_portable_range_refuted [-].

### C21 The CSR graph handed to METIS is the symmetric weighted graph of the input (proved)
Model and proof: Maps as sorted association lists.
Note: adjacency, symmetry, weights, node weights, sums for the submesh graph; self-loops of the submesh graph refuted with a witness; conversion of weights to int64 not modelled

Theorems: C21_csr_is_graph [ABF], C21_node_weights [-], C21_edges [A], C21_symmetric [AF], C21_mesh_graph_no_loops [-], C21_submesh_node_weights [ABF], C21_submesh_edge_weights [ABF], C21_submesh_loop_refuted [ABF].

### C22 Every submesh is advanced by exactly one thread (proved)
Model and proof: Div arithmetic with lia.
Note: needs units + threads <= 2^32, where the 32-bit arithmetic does not wrap

Theorems: C22_each_unit_one_thread [-].

### C23 Number of time steps and output schedule (proved)
Model and proof: Ceil as on R/Q; mod arithmetic.
Note: real arithmetic instead of double for the quotient; zero period refuted (modulo zero)

Theorems: C23_least_cover [AF], C23_defined [AF], C23_positive [AF], C23_output_schedule [ABF], C23_zero_period_refuted [ABF].

### C24 Partitioned runs open the files the partitioner wrote (proved)
Model and proof: Strings; decimal printing injective.
Note: names for all strings; a fresh directory gives exactly the written submeshes; stale files refuted

Theorems: C24_names_agree [-], C24_names_distinct [-], C24_finds_all_submeshes [-], C24_stale_files_refuted [-], C24_name_without_dot [-], C24_output_names_distinct [-].

### C25 Modal basis indexing is a bijection with consistent sizes (proved)
Model and proof: sqrt-based index replaced by exact real ceil/sqrt; proven equal to triangular decomposition.
Note: square root and ceiling over the reals; a separate theorem bounds the rounding error that is harmless

Theorems: C25_degree [ABF], C25_no_underflow [ABF], C25_number_of_pair [ABF], C25_pair_of_number [ABF], C25_prefix [ABF], C25_rounding [ABF].

### C26 Modal and vertex representations are inverse (proved)
Model and proof: 3x3 matrices over Q/R.
Note: all orders from one; order zero refuted with a witness (out-of-range writes)

Theorems: C26_vertex_to_modal_and_back [AF], C26_modal_to_vertex_and_back [AF], C26_vertex_values [ABF], C26_same_function [ABF], C26_order_zero_refuted [AF].

### C27 Basis orthogonality and mass matrix (proved)
Model and proof: Polynomials with rational coefficients; exact integration.
Note: reals instead of double, unsigned 32-bit coefficients with wrap-around modelled; degree bound 298; iterated Riemann integrals

Theorems: C27_jacobi [AF], C27_orthogonality [ABCF], C27_polynomial [ABCF], C27_lowest [ABF], C27_cell_mean [ABCF].

### C28 Straight triangles have a closed boundary with outward unit normals (proved)
Model and proof: Real geometry with sqrt.
Note: reals instead of double

Theorems: C28_constructor [AF], C28_normals [ABF], C28_closed_boundary [ABF], C28_jacobian [AF], C28_element_weight [AF], C28_measures [ABF], C28_master_map [AF], C28_gradients [AF], C28_inverse_jacobian [AF], C28_linear_basis [AF].

### C29 Edge kinds are disjoint and survive distribution (proved)
Model and proof: uchar arithmetic on Z mod 256.
Note: all 256 codes; injectivity for all codes, not only internal ones

Theorems: C29_one_kind [-], C29_distributed_kind [-], C29_distributed_injective [-].

### C30 Explicit HDG interface fluxes conserve all quantities (proved)
Model and proof: In-place loop over arrays; induction on ngp.
Note: whole in-place loops including stale buffers

Theorems: C30_ehdg_mass_conserved [ABF], C30_ehdg_wet_all_cancel [ABF].

### C31 Distributed faces compute the same flux as internal faces (proved)
Model and proof: Two models (serial, distributed) compared.
Note: RKDG with message encoding/decoding and loops; EHDG and levees per Gauss point

Theorems: C31_distributed_equals_internal [ABF], C31_ehdg_distributed_equals_internal [ABF], C31_distributed_levee_equals_levee [ABF].

### C32 A full explicit step conserves total water volume on a closed basin (proved)
Model and proof: Mesh as list of elements and faces with quadrature; sum over faces; composition with stage update.
Note: reals; serial step only; NaN check, input parsing and output left out; symmetric face weights and sp = 1 are hypotheses; constancy with wetting and drying refuted by witness

Theorems: C32_stage_balance [ABCF], C32_step_balance [ABCF], C32_closed_step [ABCF], C32_no_lift [ABCF], C32_closed_run [ABCF], C32_volume_constant_refuted [ABCF].

### C33 Global degree-of-freedom numbering of the hybridized solvers (proved)
Model and proof: Prefix sums over list of lists.
Note: Serial and MPI numbering of the IHDG scheme, including accumulate, exclusive scans, ownership and exchange of first indices, for totals below 2^32. PETSc objects not modelled.

Theorems: C33_global_numbering [-], C33_serial_numbering [-], C33_solution_offsets [-], C33_front_of_empty_refuted [-].

### C34 Static condensation solves the full coupled system (proved)
Model and proof: Block linear algebra over abstract linear maps or mathcomp matrices.
Note: reals; matrix inverse and sparse solvers are parameters with their contracts; serial (Eigen) and distributed (PETSc) versions; that convergence bounds the element update is refuted by witness

Theorems: C34_condensed_system [ABF], C34_newton_update [ABF], C34_distributed_condensed_system [ABF], C34_distributed_newton_update [ABF], C34_converged_update_small_refuted [ABF].

### C35 Meteorological forcing is available and interpolated at every step (proved)
Model and proof: Window state machine.
Note: whole run, all stages; missing file stops the run; missing node row and zero frequency are undefined (witness)

Theorems: C35_forcing_available [AF], C35_between_snapshots [AF], C35_missing_file_stops [AF], C35_missing_node_refuted [AF], C35_zero_frequency_undefined [AF].

### C36 Every boundary type accepted on input can be simulated (proved)
Model and proof: Decision functions over codes; witnesses.
Note: classification and consumption proved for all other codes; islands and outflow refuted with witness meshes; missing tide/flow data files are not part of the model

Theorems: C36_non_island_edges_classified [-], C36_no_outflow_all_consumed [-], C36_start_exact [-], C36_island_refuted [-], C36_outflow_refuted [-].

### C37 Barrier partner lookup is an involution (proved)
Model and proof: Lists with NoDup.
Note: any number of barriers; error outcome for other edges; single-node barrier refuted

Theorems: C37_partner_involution [-], C37_other_edges_rejected [-], C37_one_node_barrier_refuted [-].

### C38 Mesh metadata written to disk is read back unchanged (proved)
Model and proof: Token streams.
Note: Character-level model of the stream operators used (unsigned, char, word, double with 15 digits, ignore, getline) in the C locale; exponent range of doubles, NaN and I/O errors left out.

Theorems: C38_round_trip [AF], C38_exact [AF], C38_stable [AF], C38_known_codes [-], C38_name_refuted [AF], C38_empty_name_refuted [-], C38_code_refuted [-], C38_digits_refuted [-], C38_bad_count [-].

### C39 Levees: closed levees are walls; overtopped levees conserve mass only if the interior discharges match (proved)
Model and proof: weir flux per Gauss point with all branches; case analysis; witness for unequal interior discharges.
Note: closed levee passes no water; exact mass defect of an overtopped levee; conservation and flow direction refuted in general, proved for still water

Theorems: C39_levee_closed_no_flow [ABF], C39_levee_mass_defect [ABF], C39_levee_mass_conservation_refuted [ABF], C39_levee_still_water [ABF], C39_levee_direction_refuted [ABF].

### C40 Bottom friction never accelerates the flow (proved)
Model and proof: Real inequality.
Note: both friction laws, whole Gauss-point loop with the carried local Cf; commented-out forcings not modelled

Theorems: C40_friction_dissipates [ABCF], C40_friction_strict [ABCF], C40_source_form [ABCF], C40_cube_root [ABCF].

### C41 Clockwise input elements are handled consistently (proved)
Model and proof: Model of constructor swap vs. node table; witness.
Note: holds for counter-clockwise elements; clockwise elements describe the wrong edge (general theorem and witness)

Theorems: C41_counter_clockwise [AF], C41_clockwise [AF], C41_clockwise_refuted [AF].

### C42 Boundary edges are classified by priority and direction-independently (proved)
Model and proof: classification as a function of the edge dictionary; case analysis on the order of the checks.
Note: relational specification equivalent to the function; no undefined behaviour for non-empty barriers; empty barrier refuted

Theorems: C42_boundary_classification [-], C42_direction_irrelevant [-], C42_no_undefined_behaviour [-], C42_empty_barrier_refuted [-].

### C43 Both sides of an interface see the same Gauss points (proved)
Model and proof: real geometry; the two parametrisations of a shared edge compared.
Note: symmetric 1D rule as hypothesis

Theorems: C43_interface_points [ABF].

### C44 The boundary basis is the Legendre basis (proved)
Model and proof: Legendre recursion against the classical sum; orthogonality by Coquelicot integrals.
Note: reals instead of double; degree bound 500

Theorems: C44_legendre_orthogonality [ABCF], C44_legendre_derivative [ABCF].

### C45 Distributed boundary files are read as written (proved)
Model and proof: character-level streams; reader applied to writer by induction on the records.
Note: Character-level model of the stream operators; allocation failure for huge counts and I/O errors left out.

Theorems: C45_round_trip [-], C45_blank_line_refuted [-], C45_leading_line_refuted [-], C45_width_refuted [-].

### C46 ADCIRC mesh files are read as written (proved)
Model and proof: character-level streams; reader applied to writer, and exact outcome on damaged files.
Note: Character-level model of the stream operators; subnormal, infinite and NaN values, allocation failure and I/O errors left out; release build (assertions off); using a member without value is an explicit UB outcome.

Theorems: C46_round_trip [AF], C46_exact [AF], C46_no_generic_refuted [-], C46_title_refuted [-], C46_truncated_refuted [-], C46_duplicate_refuted [-].

### C47 The solver reads the generated quadrilateral mesh (proved)
Model and proof: composition of C16 (generator) with C46 (reader) at character level.
Note: Character-level; coordinates given as doubles (their computation is C16 over the reals); BCIS and input files not modelled.

Theorems: C47_generated_mesh_is_read [AF], C47_small_refuted [AF].

### C48 A lake at rest stays at rest (proved)
Model and proof: initial data, then the whole stage kernel; every kernel maps the resting state to zero right-hand side; induction over stages and steps.
Note: Reals, quadrature rules assumed exact for degree 2p (area) and 2p+1 (edges); constant initial conditions; the violated spherical case has a refutation theorem.

Theorems: C48_initial_rest [ABCF], C48_rhs_zero [ABCF], C48_run [ABCF], C48_step_any [ABCF], C48_depth_positive [ABCF], C48_spherical_refuted [ABCF].

### C49 The implicit solver's Newton matrix is the Jacobian of its residual (proved)
Model and proof: every kernel of the Newton pass; derivative of the residual by Coquelicot, matrix entry by entry.
Note: Reals, straight triangles, one order per mesh; function and forcing sources included, levee edges (empty kernels) and distributed edges left out; the violated cases have refutation theorems with the exact missing term.

Theorems: C49_local_local [ABCF], C49_local_local_flat [ABCF], C49_local_trace [ABCF], C49_trace_local [ABCF], C49_trace_open [ABCF], C49_trace_trace [ABCF], C49_friction_at_rest [ABCF], C49_bed_slope_refuted [ABCF], C49_open_state_refuted [ABCF].

### C50 The implicit solver conserves mass in a closed basin (proved)
Model and proof: test function 1 in the equations of C49; telescoping over edges.
Note: Reals; the increments are any solution of the linear system of the pass (the elimination that computes one is C34); slope limiting after the stage is C08; levee and distributed edges left out; the violated first pass has a refutation theorem.

Theorems: C50_balance [ABCF], C50_land [ABCF], C50_closed_basin [ABCF], C50_second_order [ABCF], C50_first_pass_refuted [ABCF].

### C51 A stage of the RKDG solver solves the discontinuous Galerkin equations (proved)
Model and proof: the mesh-wide stage of C32 described element by element as the weak form; then limiter and wet/dry as separate maps.
Note: Reals; one order and straight triangles per mesh; boundary conditions other than land enter as an arbitrary exterior state; numerical fluxes, wetting and drying and the limiter kernel are described by C01-C03, C07, C08, C39.

Theorems: C51_weak_form [ABCF], C51_stage [ABCF], C51_mass_unique [ABCF].

### C52 The distributed solver computes what the serial solver computes (proved)
Model and proof: one state per unit, messages as lists; simulation relation between serial and distributed stage.
Note: Reals; one order and straight triangles; a receive buffer is its partner's send buffer (MPI delivery trusted, matching of messages is C19/C20); check_trouble, input and output left out; the violated cases have refutation theorems.

Theorems: C52_stage [ABCF], C52_run [ABCF], C52_scaled_refuted [ABCF], C52_levee_refuted [ABCF].

### C53 Tide and flow boundaries follow the harmonic signal of the input file (proved)
Model and proof: file as lists of numbers; maps from nodes to constituents; signal as a sum of cosines over the reals.
Note: Reals; a line of the file is its list of numbers (short lines, early end of file and the generator's rounding to six digits left out); the violated cases have refutation theorems.

Theorems: C53_signal [ABF], C53_missing_throws [A], C53_digits [ABCF], C53_bound [ABF], C53_reversed [ABF], C53_position [AF], C53_position_clockwise_refuted [AF], C53_start [ABF], C53_flow_flux [ABF], C53_tide_flux [ABF], C53_flow_refuted [ABF], C53_implicit_time [ABF], C53_implicit_zero_angle [ABF], C53_implicit_radians_refuted [ABCF], C53_no_constituents_refuted [A], C53_incomplete_refuted [A], C53_generated [ABF].

### C54 Both sides of a levee use the crest data of the input file (proved)
Model and proof: ordered map of node pairs; both lookups shown equal under uniqueness; witnesses otherwise.
Note: Reals; a line of the file is its list of numbers; the violated cases have refutation theorems; the levee flux itself is C39.

Theorems: C54_levee_rows [A], C54_crest [AF], C54_missing_throws [A], C54_last_row [A], C54_shared_node_refuted [AF], C54_both_orders_refuted [A].

### C55 The quadrature tables integrate what they promise (proved)
Model and proof: tables copied as rationals; moments by integer arithmetic with rounding bound, checked by computation for all tables; linearity extends to polynomials.
Note: The decimal literals are taken as rationals and checked by integer arithmetic with a proved rounding bound; sums over the reals; the violated cases have refutation theorems.

Theorems: C55_edge_rule [ABCF], C55_edge_symmetric [AF], C55_literals_symmetric_refuted [AF], C55_interface_points [ABF], C55_area_rule [ABCF], C55_beyond [AF], C55_signs [AF], C55_square_refuted [AF], C55_exact_refuted [ABCF].

### C56 The explicit HDG step: flux through traces, water balance, rest, Newton's method at open boundaries (proved)
Model and proof: kernels in call order over flux buffers; stage theorem against a weak form with given fluxes; balance and rest reuse the lemmas of C32, C48, C51; Newton's matrix identified with the derivative of the tested mismatch (Jacobians of C38), singular direction exhibited.
Note: Reals; serial; one order and straight triangles; exterior states of open boundaries are arbitrary functions; the linear solver is arbitrary (exact where the system has one solution for the Newton theorems); the violated cases have refutation theorems.

Theorems: C56_stage [ABCF], C56_stage_balance [ABCF], C56_step_balance [ABCF], C56_closed_step [ABCF], C56_closed_run [ABCF], C56_levee_refuted [ABCF], C56_rest_rhs [ABCF], C56_rest_step [ABCF], C56_rest_run [ABCF], C56_start [AF], C56_projection_ignored [ABCF], C56_trace_jacobian [ABCF], C56_trace_newton [ABCF], C56_trace_fixed [ABCF], C56_trace_loop [ABF], C56_open_rest_refuted [ABF].

### C57 Troubled cell indicator: which elements it marks and how far marks travel (proved)
Model and proof: the accumulation over faces as a fold, shown equal to a sum over face sides; the six passes shown to mark exactly the elements on paths of length at most five; two-triangle witnesses with concrete normals and lengths.
Note: Reals with IEEE convention for a zero denominator; elements numbered by ID; distributed faces enter with an arbitrary received message; the violated cases have refutation theorems.

Theorems: C57_flagged [ABCF], C57_flagged_no_depth [ABCF], C57_troubled [ABCF], C57_smooth [ABCF], C57_discharge_still [ABCF], C57_discharge_datum [ABCF], C57_datum_refuted [ABCF], C57_split_refuted [ABCF].

### C58 Green-Naghdi dispersive correction: derivatives, source, the discrete problem, rest and clocks (proved)
Model and proof: the kernels assemble block matrices flattened from element, component and degree of freedom; the Schur complements are undone algebraically, so the condensed global system is shown equivalent to the hybridised weak form stated in SpecGN with integrals over elements and edges. Unique solvability for level water by the energy identity: testing with the solution gives a sum of squares. Rest by uniqueness of the zero solution; the clocks by induction over split steps.
Note: Reals; serial; projection gradients; one order and straight triangles; the inverse and the linear solvers are exact parameters (a 2x2 model of the overwriting Blaze solver is the exception); unique solvability is a hypothesis except for level water over a level bed; the violated cases have refutation theorems.

Theorems: C58_project [ABCF], C58_project_exact [ABCF], C58_source_slope [ABF], C58_source [AF], C58_source_refuted [AF], C58_stage [ABCF], C58_level_solvable [ABCF], C58_level_stage [ABCF], C58_kept [ABF], C58_run [ABCF], C58_clocks [ABCF], C58_clocks_agree [ABCF], C58_levee [ABF], C58_dry_edge [ABF], C58_dry_last [ABF], C58_dry_refuted [ABCF], C58_overwritten_refuted [AF].

### C59 Meteorological forcing of a split (Green-Naghdi) run (proved)
Model and proof: the stage loops are unrolled into one list of parser calls (`split_calls`); availability by an invariant of the snapshot store (every entry is what its file holds, and the two needed are there), undefinedness by locating in that list the call that erases snapshot 0 and the first dispersive call after it, which exists exactly from split step (period + 2)/2 on.
Note: Reals; between calls only the advance of the stepper is kept; rows of a file are given as parsed; the violated cases have refutation theorems.

Theorems: C59_served [ABF], C59_dropped_refuted [ABF], C59_period_refuted [ABF], C59_runs_out_refuted [ABF], C59_wrong_time_refuted [ABF].

### C60 Input files: read as written, written as read, and handed on by the partitioner (proved)
Model and proof: reader and writer over a tree of maps, scalars and nulls, with exceptions and the one undefined case as outcomes; the specification walks paths of keys and does not use the reader; round trip section by section (lookup in the concatenation of optional sections), the whole file from the relations between its derived fields; the partitioner's file by reading the same tree with another reader of the problem section.
Note: A file is its YAML tree (no sequences, unique keys; emitting and loading a tree is the identity); number and time conversions are parameters with their contract (faithful, printable) where needed; yaml-cpp's creation of empty nodes on lookup left out; the violated cases have refutation theorems.

Theorems: C60_reads_problem [-], C60_accepts [-], C60_reads [-], C60_round [-], C60_parallelized [-], C60_again [-], C60_globals [-], C60_weights_refuted [-], C60_ihdg_gn_refuted [-], C60_path_refuted [-], C60_silent_refuted [-].

### C61 The distributed explicit HDG solver computes what the serial one does (proved)
Model and proof: each unit is the serial stage on the mesh of its own interfaces and boundaries, plus the cut edges; the flux of a cut edge from either side is shown to be that side's part of the serial pair (opposite normals, mirrored Gauss points, mean bathymetry), the sums over faces are regrouped by side as in C52, and the relation between units and serial state is carried through stages and steps.
Note: Reals; one order and straight triangles; no levees (their kernels are empty); a receive buffer is its partner's send buffer, as in C52; the linear solver of the boundary traces is an arbitrary function; check_trouble, input and output left out.

Theorems: C61_start [AF], C61_stage [ABCF], C61_run [ABCF].

### C62 Least squares and Green-Gauss derivatives of the dispersive solver (proved)
Model and proof: if the three directions towards the neighbouring barycentres were parallel, two of the neighbouring triangles would share an interior point (explicit positive combinations), and two faces of a triangle never have one neighbour; so the Gram determinant, a sum of squares of the three orientations, is positive and completing the square gives the unique minimiser. Green-Gauss uses the divergence theorem of the quadrature rules (C58). The meshes without pair and with a changed pair are stars of four triangles. Node averages: sorted node lists, their places, and a sum over ranks regrouped by node.
Note: Reals; straight triangles, one order; one scalar row at a time; the two by two solver is a parameter with its contract; the depth rows and the bed slopes of the preprocessor repeat the pattern and are left out; the violated cases have refutation theorems.

Theorems: C62_solvable [AF], C62_least_squares [AF], C62_affine_slope [AF], C62_green_gauss [ABCF], C62_staircase [ABCF], C62_green_gauss_neighbours_refuted [ABCF], C62_vertices [AF], C62_constants [AF], C62_affine_reconstruction [AF], C62_boundary_refuted [ABF], C62_pairs [AF], C62_pairs_found [AF], C62_split_pairs [AF], C62_clean [AF], C62_midpoints [AF], C62_no_pair_refuted [ABF], C62_split_refuted [ABF], C62_interpolated [AF], C62_derivatives_ls [ABF], C62_derivatives_gg [ABCF], C62_projection [ABCF], C62_order_zero_refuted [ABF], C62_average [AF], C62_average_partition [AF], C62_average_range [AF], C62_average_serial_refuted [A].

### C63 Output files for visualisation and of coefficients (proved)
Readers of the two formats and of coefficient files are written from the published formats. Model and proof: the double loops of points and cells have closed positions, every cell is of one of two kinds with known corners, and a point of the triangle is located by the integer parts of its scaled barycentric coordinates; reading back is by induction over encoders. Values follow since the master element's point and cell centre lists are the local corners and their means. The hidden solution is the sum of two basis functions whose product form vanishes at the vertices and the centroid.
Note: Reals for double; a file is its list of tokens (white space and the type attributes of the XML arrays left out); what printing makes of a number is a parameter, with six_digits for the default of a stream; one order, straight triangles; file system checks left out; the violated cases have refutation theorems.

Theorems: C63_legacy [ABF], C63_xml [ABF], C63_precision [AF], C63_precision_refuted [ABF], C63_resolution_refuted [ABF], C63_orientation_refuted [ABF], C63_modal [-], C63_modal_frequency [-].

### C64 Geographic input: projection, distortion factor, Coriolis parameter, Manning file (proved)
The map is affine in degrees, so orientation and injectivity follow from the sign of the cosine of the origin; pi is enclosed by a Machin formula with eight terms to compare it with the constant of the code. The factor is first brought to the height of the physical Gauss point; a table invariant (every entry is either right or untouched) is carried through the loops over interfaces and boundaries, using that the two sides of a face meet in reversed order. The Manning loop is a fold whose table agrees with the last rows of the readable part.
Note: Reals for double, the code's constant for pi; a line of the Manning file is what formatted input makes of it; straight triangles; the Coriolis parameter is stored but its source term is commented out in the code; the violated cases have refutation theorems.

Theorems: C64_mesh [ABF], C64_orientation [ABCF], C64_pole_refuted [ABCF], C64_distances [ABCF], C64_rates [ABCF], C64_map_digits [ABCF], C64_inner [ABF], C64_faces [ABF], C64_both_sides [ABF], C64_plane [ABF], C64_levee_refuted [ABCF], C64_range [ABCF], C64_pole_factor_refuted [ABCF], C64_default_refuted [ABCF], C64_coriolis [ABCF], C64_coriolis_bound [ABF], C64_local_coriolis_refuted [ABF], C64_manning [AF], C64_manning_rows [A], C64_manning_range [AF], C64_manning_refuted [A].

### C65 The reference solutions of the examples and the equations of the solver (proved)
The code's form differs from the textbook's by the derivative of g B^2/2, which the source absorbs. For the manufactured solution all derivatives are computed for arbitrary gravity and depth; evaluating the momentum balance at the origin gives the depth, at y = pi/6 the gravity. The bowl is reduced to three ordinary differential equations for depth at the centre, curvature and strain. The solitary wave is a rational function of the hyperbolic tangent; the momentum equation determines w1, and the dispersive equation then fails by (alpha - 1)/3 times an explicit function that is not zero where the tangent is 3/5.
Note: Reals for double; classical (pointwise differentiable) solutions; straight triangles; Thacker's solution is the spec, the code only has its initial state; the dispersive equations are those of C58 on a flat bed with waves along x; the violated cases have refutation theorems.

Theorems: C65_equations [ABCF], C65_manufactured [ABCF], C65_manufactured_data [ABF], C65_generator_refuted [ABCF], C65_bowl [ABCF], C65_bowl_shore [AF], C65_solitary [ABCF], C65_solitary_data [ABF], C65_solitary_refuted [ABCF], C65_initial [ABCF], C65_initial_exact [ABCF], C65_boundary [AF], C65_source [AF].

### C66 The distributed implicit HDG solver computes what the serial one does (proved)
The trace basis against the element is the Legendre basis with odd degrees negated (parity of the polynomials), fluxes change sign with the normal, and stabilisation does not. So the blocks of a half edge are the serial blocks of its side, times the sign for each trace index; the rows of the two halves add up to the serial row times the sign. The loops over a unit's lists give closed forms of every entry; sums over the serial edges restricted to an element of the unit are sums over its own edges and halves. The equivalence of the systems follows row by row; states and increments are split and joined with the signs, and induction gives any number of passes. The lists of edges numbered by the units, one half of each cut being the one with its basis along the element, are a permutation of all edges, and signs square to one, so norms agree; induction over the loop and the steps gives runs.
Note: Reals; straight triangles, one order; the linear system is solved exactly (assembly, condensation and numbering are C33 and C34); data of a unit are indexed by the numbers of the undivided mesh; delivery of the message is a hypothesis (the buffers are C19); distributed levees (empty kernels) left out; VecNorm and VecGetSize give the norm and length of the global vector on every rank; the slope limiter is not part of it.

Theorems: C66_flags [-], C66_flags_lower [-], C66_flags_same [-], C66_start [ABF], C66_first_index [ABF], C66_system [ABCF], C66_rhs_prev [ABCF], C66_passes_split [ABCF], C66_passes_join [ABCF], C66_numbered [-], C66_vectors [ABF], C66_stop [ABF], C66_test [ABF], C66_loop_split [ABCF], C66_loop_join [ABCF], C66_run_split [ABCF], C66_run_join [ABCF].

### C67 The distributed Green-Naghdi correction computes what the serial one does (proved)
Induction over the exchanges: a mean of the own value and the one received from the mirrored point is the serial mean of both sides, so right-hand sides, which sum over own edges and halves, are the serial ones, and the next derivative follows. The loops over a unit's lists are closed forms of every block. Blocks of a half are the serial blocks of its side with the parity sign of the trace basis; the kernels of the two halves add up to those of the interface in each of the cases wet-wet, wet-dry and dry-wet. Rows are compared one by one, and signs square to one.
Note: Reals; straight triangles, one order; gradients by projection (the default); data of a unit are indexed by the numbers of the undivided mesh; delivery of the messages is a hypothesis (the buffers are C19); equations before condensation (condensation and the serial solution are C58); PETSc assembly and solution and distributed levees left out.

Theorems: C67_fields [ABF], C67_traces [ABF], C67_blocks [ABF], C67_system [ABF].

### C68 The unknowns of the distributed Green-Naghdi correction are numbered once, and the assembled system does not depend on the division (proved)
Counting and shifting are folds whose numbers are consecutive ranges, joined with the exclusive scan of C33. The numbers given are in bijection with the edges that have a wet side, because the lower half of a cut counts it if either side is wet. Letters found by edge carry that number. Places are positions in the growing local vector. A row of the matrix is filtered by its number, which is injective on wet edges, and turned into a sum over the sides of the edge; sums over two divisions are permutations of each other.
Note: One unknown stands for the block of an edge; values of the blocks are parameters (C67 and C58 compute them); delivery of the numbers by cut and side (the buffers are C19) and, on halves whose own side is dry, fresh wet flags of the neighbours (C67) are hypotheses; the PETSc objects and the solver are left out; the violated cases have refutation theorems.

Theorems: C68_numbering [-], C68_first [-], C68_serial [ABF], C68_rows [AF], C68_same_solutions [AF], C68_read_back [-], C68_row_room [A], C68_stale_place [-], C68_empty_refuted [-], C68_dry_refuted [-], C68_flag_needed [-].

### C69 No NaN is written: a run with a NaN in its solution is aborted before the output (proved)
Doubles are the values of SpecFloat, in which every sum and product with a NaN is NaN and every comparison with it is false, by cases on the other argument. So a NaN in any state or solution a stage combines reaches the new coefficients whatever its weight; the slot searched is the one written by UpdateState, swapped at the last stage. In the wetting and drying kernel a NaN in the elevation makes all three depths NaN, no vertex dry and the final comparison false, and each way out keeps it; for the discharge a vertex that is not dry keeps its NaN. The limiter compares norms that are NaN as soon as a coefficient or a slope of the variable is, so it leaves the variable as it is. Runs are by induction on the steps with an arbitrary post-processing.
Note: Binary64 values of the standard library (SpecFloat), one NaN; kernels, inverse mass matrix and post-processing are arbitrary functions in the general theorems; in the theorems on detection the slopes of the limiter are arbitrary; the iteration of the implicit solver is an arbitrary function; the output before the first stage is not searched; the distributed solver calls MPI_Abort with error code 0 instead of abort; the violated cases have refutation theorems.

Theorems: C69_check [-], C69_written [-], C69_written_gn [-], C69_stage [-], C69_abort_only [-], C69_detected [-], C69_detected_gn [-], C69_detected_post [-], C69_limiter [-], C69_wd_level [-], C69_mean_depth [-], C69_wd_hidden [-], C69_written_implicit [-], C69_detected_implicit [-], C69_hidden_refuted [-], C69_infinite_refuted [-].

{
 "claims": [
  {
   "property": "C01",
   "status": "proved",
   "theorems": [
    "C01_interface_mass_conserved",
    "C01_interface_wet_all_cancel",
    "C01_no_outflow_from_dry"
   ],
   "note": "mass cancels at matching Gauss points for every wet/dry combination and any number of points; all components when both wet; no outflow from a dry element beyond the 1e-12 flux threshold"
  },
  {
   "property": "C02",
   "status": "proved",
   "theorems": [
    "C02_consistent",
    "C02_swap_sides",
    "C02_local_lax_friedrichs",
    "C02_flows_downhill",
    "C02_analytic_flux",
    "C02_spherical_consistency_refuted"
   ],
   "note": "consistency and side-independence for spherical factor 1; violation in spherical coordinates proved with a witness"
  },
  {
   "property": "C03",
   "status": "proved",
   "theorems": [
    "C03_land_impermeable",
    "C03_land_exterior_state",
    "C03_ehdg_land_impermeable",
    "C03_spherical_refuted"
   ],
   "note": "RKDG and EHDG walls, spherical factor 1; in spherical coordinates the RKDG wall leaks (refuted with witness)"
  },
  {
   "property": "C04",
   "status": "proved",
   "theorems": [
    "C04_flux_jacobians",
    "C04_normal_flux_jacobian",
    "C04_normal_combination"
   ],
   "note": "directional and normal fluxes; Coquelicot is_derive; needs nonzero depth only"
  },
  {
   "property": "C05",
   "status": "proved",
   "theorems": [
    "C05_eigenvectors_inverse",
    "C05_decomposition",
    "C05_upwind_parts",
    "C05_absolute_value",
    "C05_absolute_value_sign",
    "C05_parts_sign",
    "C05_dA",
    "C05_dabsA",
    "C05_dAplus",
    "C05_dAminus"
   ],
   "note": "derivatives of |A|, A+ and A- where no eigenvalue vanishes; derivatives of A everywhere with positive depth"
  },
  {
   "property": "C06",
   "status": "proved",
   "theorems": [
    "C06_tau_bounds_eigenvalues",
    "C06_tau_attained",
    "C06_tau_derivatives",
    "C06_derivative_at_rest_refuted",
    "C06_gravity_argument_refuted"
   ],
   "note": "bound is attained; derivative claim fails at zero normal velocity (witness); gravity argument of the overload is ignored (witness)"
  },
  {
   "property": "C07",
   "status": "proved",
   "theorems": [
    "C07_water",
    "C07_wet_unchanged",
    "C07_all_dry",
    "C07_partly_dry",
    "C07_linear_after",
    "C07_initial",
    "C07_bath_min",
    "C07_average_refuted",
    "C07_initial_average_refuted",
    "C07_order_zero_refuted"
   ],
   "note": "reals; three vertices; water creation below the threshold, at initialisation, and order zero are refuted by witness"
  },
  {
   "property": "C08",
   "status": "proved",
   "theorems": [
    "C08_start_data",
    "C08_mean",
    "C08_skip",
    "C08_unlimited",
    "C08_result",
    "C08_minmod",
    "C08_alpha",
    "C08_geometry",
    "C08_linear_exact",
    "C08_neighbours",
    "C08_linear_at_boundary_refuted",
    "C08_positive_depth_refuted"
   ],
   "note": "reals; NaN for non-positive centre depth not modelled (exactness theorems ask for positive depth); boundary behaviour and positivity refuted by witness"
  },
  {
   "property": "C09",
   "status": "proved",
   "theorems": [
    "C09_step_stage_clock",
    "C09_ramp",
    "C09_implicit_clock",
    "C09_implicit_ramp",
    "C09_implicit_scheme"
   ],
   "note": "explicit stepper counters and clock, tanh ramp range and value, implicit stepper counters, clock and ramp levels; exact real arithmetic for the clock"
  },
  {
   "property": "C10",
   "status": "proved",
   "theorems": [
    "C10_supported_schemes",
    "C10_coefficients",
    "C10_step_is_shu_osher",
    "C10_linear_invariant",
    "C10_linear_balance",
    "C10_strong_stability",
    "C10_strong_stability_cfl"
   ],
   "note": "coefficients as the decimal literals of the source; the step includes the final swap; linear invariants, constant-rate balance and strong stability for all states and right-hand sides"
  },
  {
   "property": "C11",
   "status": "proved",
   "theorems": [
    "C11_order_conditions",
    "C11_linear_test"
   ],
   "note": "Butcher form derived from the Shu-Osher tables; all rooted-tree conditions up to order p within 1e-10; linear test polynomial"
  },
  {
   "property": "C12",
   "status": "proved",
   "theorems": [
    "C12_reported_time",
    "C12_stage_time_refuted"
   ],
   "note": "the property is violated: refuted for every scheme with two or more stages (reported stage time is the start of the step); the exact reported time is proved"
  },
  {
   "property": "C13",
   "status": "proved",
   "theorems": [
    "C13_has_edge_exact"
   ],
   "note": "exact characterisation for lists with repetitions"
  },
  {
   "property": "C14",
   "status": "proved",
   "theorems": [
    "C14_shared_faces_name_each_other",
    "C14_internal_faces_mutual",
    "C14_unshared_faces_carry_their_type",
    "C14_levee_faces_mutual",
    "C14_construction_succeeds"
   ],
   "note": "any iteration order of both hash maps; both directions, unshared faces, levees, totality"
  },
  {
   "property": "C15",
   "status": "proved",
   "theorems": [
    "C15_interface_loop_exact",
    "C15_internal_interfaces",
    "C15_levee_interfaces",
    "C15_boundary_faces",
    "C15_collection_succeeds",
    "C15_first_face_kept",
    "C15_unmatched_face_dropped_refuted",
    "C15_meeting_twice_refuted"
   ],
   "note": "the loop alone for any value type, and end to end from the ADCIRC mesh; silent drop and double edges refuted with witnesses"
  },
  {
   "property": "C16",
   "status": "proved",
   "theorems": [
    "C16_complete",
    "C16_conforming",
    "C16_boundary_lists",
    "C16_counter_clockwise",
    "C16_area",
    "C16_readable",
    "C16_dent_refuted",
    "C16_wrap_refuted"
   ],
   "note": "Node loop, the three element patterns, the four boundary lists and their codes modelled with 32-bit wrap-around; positions over the reals; the text file is C47."
  },
  {
   "property": "C17",
   "status": "proved",
   "theorems": [
    "C17_partition_keeps_elements",
    "C17_empty_mesh_refuted"
   ],
   "note": "every METIS answer, every iteration order of the hash maps, several ranks per node; empty mesh reads through the end iterator of the weight map (witness)"
  },
  {
   "property": "C18",
   "status": "proved",
   "theorems": [
    "C18_files_complete",
    "C18_files_match",
    "C18_partition_to_files",
    "C18_double_neighbour_refuted"
   ],
   "note": "any iteration order of the sets; written and read back per submesh; needs loc + num_loc*sub < 2^32; elements meeting in two faces refuted with a witness; numbers' text form not modelled"
  },
  {
   "property": "C19",
   "status": "proved",
   "theorems": [
    "C19_regions",
    "C19_messages_fit",
    "C19_exchange",
    "C19_initial_buffers",
    "C19_same_layout",
    "C19_barycentre_values",
    "C19_wet_values",
    "C19_state_values",
    "C19_slope_values",
    "C19_ehdg_init_values",
    "C19_ihdg_init_values",
    "C19_dry_depth_refuted",
    "C19_no_neighbours_refuted"
   ],
   "note": "Layout, exchange and contents of the three schemes' messages, for any number of faces and Gauss points as long as buffer sizes stay below 2^32; partner layouts agree by C18. MPI modelled as copying the partner's send buffer. Dry depth and empty rank boundary list are refuted by witness."
  },
  {
   "property": "C20",
   "status": "proved",
   "theorems": [
    "C20_partner_tags_match",
    "C20_tags_distinct",
    "C20_tag_value",
    "C20_collision_refuted",
    "C20_portable_range_refuted"
   ],
   "note": "all 16-bit ids; collision witness from id 256; witness that tags leave the range every MPI guarantees"
  },
  {
   "property": "C21",
   "status": "proved",
   "theorems": [
    "C21_csr_is_graph",
    "C21_node_weights",
    "C21_edges",
    "C21_symmetric",
    "C21_mesh_graph_no_loops",
    "C21_submesh_node_weights",
    "C21_submesh_edge_weights",
    "C21_submesh_loop_refuted"
   ],
   "note": "adjacency, symmetry, weights, node weights, sums for the submesh graph; self-loops of the submesh graph refuted with a witness; conversion of weights to int64 not modelled"
  },
  {
   "property": "C22",
   "status": "proved",
   "theorems": [
    "C22_each_unit_one_thread"
   ],
   "note": "needs units + threads <= 2^32, where the 32-bit arithmetic does not wrap"
  },
  {
   "property": "C23",
   "status": "proved",
   "theorems": [
    "C23_least_cover",
    "C23_defined",
    "C23_positive",
    "C23_output_schedule",
    "C23_zero_period_refuted"
   ],
   "note": "real arithmetic instead of double for the quotient; zero period refuted (modulo zero)"
  },
  {
   "property": "C24",
   "status": "proved",
   "theorems": [
    "C24_names_agree",
    "C24_names_distinct",
    "C24_finds_all_submeshes",
    "C24_stale_files_refuted",
    "C24_name_without_dot",
    "C24_output_names_distinct"
   ],
   "note": "names for all strings; a fresh directory gives exactly the written submeshes; stale files refuted"
  },
  {
   "property": "C25",
   "status": "proved",
   "theorems": [
    "C25_degree",
    "C25_no_underflow",
    "C25_number_of_pair",
    "C25_pair_of_number",
    "C25_prefix",
    "C25_rounding"
   ],
   "note": "square root and ceiling over the reals; a separate theorem bounds the rounding error that is harmless"
  },
  {
   "property": "C26",
   "status": "proved",
   "theorems": [
    "C26_vertex_to_modal_and_back",
    "C26_modal_to_vertex_and_back",
    "C26_vertex_values",
    "C26_same_function",
    "C26_order_zero_refuted"
   ],
   "note": "all orders from one; order zero refuted with a witness (out-of-range writes)"
  },
  {
   "property": "C27",
   "status": "proved",
   "theorems": [
    "C27_jacobi",
    "C27_orthogonality",
    "C27_polynomial",
    "C27_lowest",
    "C27_cell_mean"
   ],
   "note": "reals instead of double, unsigned 32-bit coefficients with wrap-around modelled; degree bound 298; iterated Riemann integrals"
  },
  {
   "property": "C28",
   "status": "proved",
   "theorems": [
    "C28_constructor",
    "C28_normals",
    "C28_closed_boundary",
    "C28_jacobian",
    "C28_element_weight",
    "C28_measures",
    "C28_master_map",
    "C28_gradients",
    "C28_inverse_jacobian",
    "C28_linear_basis"
   ],
   "note": "reals instead of double"
  },
  {
   "property": "C29",
   "status": "proved",
   "theorems": [
    "C29_one_kind",
    "C29_distributed_kind",
    "C29_distributed_injective"
   ],
   "note": "all 256 codes; injectivity for all codes, not only internal ones"
  },
  {
   "property": "C30",
   "status": "proved",
   "theorems": [
    "C30_ehdg_mass_conserved",
    "C30_ehdg_wet_all_cancel"
   ],
   "note": "whole in-place loops including stale buffers"
  },
  {
   "property": "C31",
   "status": "proved",
   "theorems": [
    "C31_distributed_equals_internal",
    "C31_ehdg_distributed_equals_internal",
    "C31_distributed_levee_equals_levee"
   ],
   "note": "RKDG with message encoding/decoding and loops; EHDG and levees per Gauss point"
  },
  {
   "property": "C32",
   "status": "proved",
   "theorems": [
    "C32_stage_balance",
    "C32_step_balance",
    "C32_closed_step",
    "C32_no_lift",
    "C32_closed_run",
    "C32_volume_constant_refuted"
   ],
   "note": "reals; serial step only; NaN check, input parsing and output left out; symmetric face weights and sp = 1 are hypotheses; constancy with wetting and drying refuted by witness"
  },
  {
   "property": "C33",
   "status": "proved",
   "theorems": [
    "C33_global_numbering",
    "C33_serial_numbering",
    "C33_solution_offsets",
    "C33_front_of_empty_refuted"
   ],
   "note": "Serial and MPI numbering of the IHDG scheme, including accumulate, exclusive scans, ownership and exchange of first indices, for totals below 2^32. PETSc objects not modelled."
  },
  {
   "property": "C34",
   "status": "proved",
   "theorems": [
    "C34_condensed_system",
    "C34_newton_update",
    "C34_distributed_condensed_system",
    "C34_distributed_newton_update",
    "C34_converged_update_small_refuted"
   ],
   "note": "reals; matrix inverse and sparse solvers are parameters with their contracts; serial (Eigen) and distributed (PETSc) versions; that convergence bounds the element update is refuted by witness"
  },
  {
   "property": "C35",
   "status": "proved",
   "theorems": [
    "C35_forcing_available",
    "C35_between_snapshots",
    "C35_missing_file_stops",
    "C35_missing_node_refuted",
    "C35_zero_frequency_undefined"
   ],
   "note": "whole run, all stages; missing file stops the run; missing node row and zero frequency are undefined (witness)"
  },
  {
   "property": "C36",
   "status": "proved",
   "theorems": [
    "C36_non_island_edges_classified",
    "C36_no_outflow_all_consumed",
    "C36_start_exact",
    "C36_island_refuted",
    "C36_outflow_refuted"
   ],
   "note": "classification and consumption proved for all other codes; islands and outflow refuted with witness meshes; missing tide/flow data files are not part of the model"
  },
  {
   "property": "C37",
   "status": "proved",
   "theorems": [
    "C37_partner_involution",
    "C37_other_edges_rejected",
    "C37_one_node_barrier_refuted"
   ],
   "note": "any number of barriers; error outcome for other edges; single-node barrier refuted"
  },
  {
   "property": "C38",
   "status": "proved",
   "theorems": [
    "C38_round_trip",
    "C38_exact",
    "C38_stable",
    "C38_known_codes",
    "C38_name_refuted",
    "C38_empty_name_refuted",
    "C38_code_refuted",
    "C38_digits_refuted",
    "C38_bad_count"
   ],
   "note": "Character-level model of the stream operators used (unsigned, char, word, double with 15 digits, ignore, getline) in the C locale; exponent range of doubles, NaN and I/O errors left out."
  },
  {
   "property": "C39",
   "status": "proved",
   "theorems": [
    "C39_levee_closed_no_flow",
    "C39_levee_mass_defect",
    "C39_levee_mass_conservation_refuted",
    "C39_levee_still_water",
    "C39_levee_direction_refuted"
   ],
   "note": "closed levee passes no water; exact mass defect of an overtopped levee; conservation and flow direction refuted in general, proved for still water"
  },
  {
   "property": "C40",
   "status": "proved",
   "theorems": [
    "C40_friction_dissipates",
    "C40_friction_strict",
    "C40_source_form",
    "C40_cube_root"
   ],
   "note": "both friction laws, whole Gauss-point loop with the carried local Cf; commented-out forcings not modelled"
  },
  {
   "property": "C41",
   "status": "proved",
   "theorems": [
    "C41_counter_clockwise",
    "C41_clockwise",
    "C41_clockwise_refuted"
   ],
   "note": "holds for counter-clockwise elements; clockwise elements describe the wrong edge (general theorem and witness)"
  },
  {
   "property": "C42",
   "status": "proved",
   "theorems": [
    "C42_boundary_classification",
    "C42_direction_irrelevant",
    "C42_no_undefined_behaviour",
    "C42_empty_barrier_refuted"
   ],
   "note": "relational specification equivalent to the function; no undefined behaviour for non-empty barriers; empty barrier refuted"
  },
  {
   "property": "C43",
   "status": "proved",
   "theorems": [
    "C43_interface_points"
   ],
   "note": "symmetric 1D rule as hypothesis"
  },
  {
   "property": "C44",
   "status": "proved",
   "theorems": [
    "C44_legendre_orthogonality",
    "C44_legendre_derivative"
   ],
   "note": "reals instead of double; degree bound 500"
  },
  {
   "property": "C45",
   "status": "proved",
   "theorems": [
    "C45_round_trip",
    "C45_blank_line_refuted",
    "C45_leading_line_refuted",
    "C45_width_refuted"
   ],
   "note": "Character-level model of the stream operators; allocation failure for huge counts and I/O errors left out."
  },
  {
   "property": "C46",
   "status": "proved",
   "theorems": [
    "C46_round_trip",
    "C46_exact",
    "C46_no_generic_refuted",
    "C46_title_refuted",
    "C46_truncated_refuted",
    "C46_duplicate_refuted"
   ],
   "note": "Character-level model of the stream operators; subnormal, infinite and NaN values, allocation failure and I/O errors left out; release build (assertions off); using a member without value is an explicit UB outcome."
  },
  {
   "property": "C47",
   "status": "proved",
   "theorems": [
    "C47_generated_mesh_is_read",
    "C47_small_refuted"
   ],
   "note": "Character-level; coordinates given as doubles (their computation is C16 over the reals); BCIS and input files not modelled."
  },
  {
   "property": "C48",
   "status": "proved",
   "theorems": [
    "C48_initial_rest",
    "C48_rhs_zero",
    "C48_run",
    "C48_step_any",
    "C48_depth_positive",
    "C48_spherical_refuted"
   ],
   "note": "Reals, quadrature rules assumed exact for degree 2p (area) and 2p+1 (edges); constant initial conditions; the violated spherical case has a refutation theorem."
  },
  {
   "property": "C49",
   "status": "proved",
   "theorems": [
    "C49_local_local",
    "C49_local_local_flat",
    "C49_local_trace",
    "C49_trace_local",
    "C49_trace_open",
    "C49_trace_trace",
    "C49_friction_at_rest",
    "C49_bed_slope_refuted",
    "C49_open_state_refuted"
   ],
   "note": "Reals, straight triangles, one order per mesh; function and forcing sources included, levee edges (empty kernels) and distributed edges left out; the violated cases have refutation theorems with the exact missing term."
  },
  {
   "property": "C50",
   "status": "proved",
   "theorems": [
    "C50_balance",
    "C50_land",
    "C50_closed_basin",
    "C50_second_order",
    "C50_first_pass_refuted"
   ],
   "note": "Reals; the increments are any solution of the linear system of the pass (the elimination that computes one is C34); slope limiting after the stage is C08; levee and distributed edges left out; the violated first pass has a refutation theorem."
  },
  {
   "property": "C51",
   "status": "proved",
   "theorems": [
    "C51_weak_form",
    "C51_stage",
    "C51_mass_unique"
   ],
   "note": "Reals; one order and straight triangles per mesh; boundary conditions other than land enter as an arbitrary exterior state; numerical fluxes, wetting and drying and the limiter kernel are described by C01-C03, C07, C08, C39."
  },
  {
   "property": "C52",
   "status": "proved",
   "theorems": [
    "C52_stage",
    "C52_run",
    "C52_scaled_refuted",
    "C52_levee_refuted"
   ],
   "note": "Reals; one order and straight triangles; a receive buffer is its partner's send buffer (MPI delivery trusted, matching of messages is C19/C20); check_trouble, input and output left out; the violated cases have refutation theorems."
  },
  {
   "property": "C53",
   "status": "proved",
   "theorems": [
    "C53_signal",
    "C53_missing_throws",
    "C53_digits",
    "C53_bound",
    "C53_reversed",
    "C53_position",
    "C53_position_clockwise_refuted",
    "C53_start",
    "C53_flow_flux",
    "C53_tide_flux",
    "C53_flow_refuted",
    "C53_implicit_time",
    "C53_implicit_zero_angle",
    "C53_implicit_radians_refuted",
    "C53_no_constituents_refuted",
    "C53_incomplete_refuted",
    "C53_generated"
   ],
   "note": "Reals; a line of the file is its list of numbers (short lines, early end of file and the generator's rounding to six digits left out); the violated cases have refutation theorems."
  },
  {
   "property": "C54",
   "status": "proved",
   "theorems": [
    "C54_levee_rows",
    "C54_crest",
    "C54_missing_throws",
    "C54_last_row",
    "C54_shared_node_refuted",
    "C54_both_orders_refuted"
   ],
   "note": "Reals; a line of the file is its list of numbers; the violated cases have refutation theorems; the levee flux itself is C39."
  },
  {
   "property": "C55",
   "status": "proved",
   "theorems": [
    "C55_edge_rule",
    "C55_edge_symmetric",
    "C55_literals_symmetric_refuted",
    "C55_interface_points",
    "C55_area_rule",
    "C55_beyond",
    "C55_signs",
    "C55_square_refuted",
    "C55_exact_refuted"
   ],
   "note": "The decimal literals are taken as rationals and checked by integer arithmetic with a proved rounding bound; sums over the reals; the violated cases have refutation theorems."
  },
  {
   "property": "C56",
   "status": "proved",
   "theorems": [
    "C56_stage",
    "C56_stage_balance",
    "C56_step_balance",
    "C56_closed_step",
    "C56_closed_run",
    "C56_levee_refuted",
    "C56_rest_rhs",
    "C56_rest_step",
    "C56_rest_run",
    "C56_start",
    "C56_projection_ignored",
    "C56_trace_jacobian",
    "C56_trace_newton",
    "C56_trace_fixed",
    "C56_trace_loop",
    "C56_open_rest_refuted"
   ],
   "note": "Reals; serial; one order and straight triangles; exterior states of open boundaries are arbitrary functions; the linear solver is arbitrary (exact where the system has one solution for the Newton theorems); the violated cases have refutation theorems."
  },
  {
   "property": "C57",
   "status": "proved",
   "theorems": [
    "C57_flagged",
    "C57_flagged_no_depth",
    "C57_troubled",
    "C57_smooth",
    "C57_discharge_still",
    "C57_discharge_datum",
    "C57_datum_refuted",
    "C57_split_refuted"
   ],
   "note": "Reals with IEEE convention for a zero denominator; elements numbered by ID; distributed faces enter with an arbitrary received message; the violated cases have refutation theorems."
  },
  {
   "property": "C58",
   "status": "proved",
   "theorems": [
    "C58_project",
    "C58_project_exact",
    "C58_source_slope",
    "C58_source",
    "C58_source_refuted",
    "C58_stage",
    "C58_level_solvable",
    "C58_level_stage",
    "C58_kept",
    "C58_run",
    "C58_clocks",
    "C58_clocks_agree",
    "C58_levee",
    "C58_dry_edge",
    "C58_dry_last",
    "C58_dry_refuted",
    "C58_overwritten_refuted"
   ],
   "note": "Reals; serial; projection gradients; one order and straight triangles; the inverse and the linear solvers are exact parameters (a 2x2 model of the overwriting Blaze solver is the exception); unique solvability is a hypothesis except for level water over a level bed; the violated cases have refutation theorems."
  },
  {
   "property": "C59",
   "status": "proved",
   "theorems": [
    "C59_served",
    "C59_dropped_refuted",
    "C59_period_refuted",
    "C59_runs_out_refuted",
    "C59_wrong_time_refuted"
   ],
   "note": "Reals; between calls only the advance of the stepper is kept; rows of a file are given as parsed; the violated cases have refutation theorems."
  },
  {
   "property": "C60",
   "status": "proved",
   "theorems": [
    "C60_reads_problem",
    "C60_accepts",
    "C60_reads",
    "C60_round",
    "C60_parallelized",
    "C60_again",
    "C60_globals",
    "C60_weights_refuted",
    "C60_ihdg_gn_refuted",
    "C60_path_refuted",
    "C60_silent_refuted"
   ],
   "note": "A file is its YAML tree (no sequences, unique keys; emitting and loading a tree is the identity); number and time conversions are parameters with their contract (faithful, printable) where needed; yaml-cpp's creation of empty nodes on lookup left out; the violated cases have refutation theorems."
  },
  {
   "property": "C61",
   "status": "proved",
   "theorems": [
    "C61_start",
    "C61_stage",
    "C61_run"
   ],
   "note": "Reals; one order and straight triangles; no levees (their kernels are empty); a receive buffer is its partner's send buffer, as in C52; the linear solver of the boundary traces is an arbitrary function; check_trouble, input and output left out."
  },
  {
   "property": "C62",
   "status": "proved",
   "theorems": [
    "C62_solvable",
    "C62_least_squares",
    "C62_affine_slope",
    "C62_green_gauss",
    "C62_staircase",
    "C62_green_gauss_neighbours_refuted",
    "C62_vertices",
    "C62_constants",
    "C62_affine_reconstruction",
    "C62_boundary_refuted",
    "C62_pairs",
    "C62_pairs_found",
    "C62_split_pairs",
    "C62_clean",
    "C62_midpoints",
    "C62_no_pair_refuted",
    "C62_split_refuted",
    "C62_interpolated",
    "C62_derivatives_ls",
    "C62_derivatives_gg",
    "C62_projection",
    "C62_order_zero_refuted",
    "C62_average",
    "C62_average_partition",
    "C62_average_range",
    "C62_average_serial_refuted"
   ],
   "note": "Reals; straight triangles, one order; one scalar row at a time; the two by two solver is a parameter with its contract; the depth rows and the bed slopes of the preprocessor repeat the pattern and are left out; the violated cases have refutation theorems."
  },
  {
   "property": "C63",
   "status": "proved",
   "theorems": [
    "C63_legacy",
    "C63_xml",
    "C63_precision",
    "C63_precision_refuted",
    "C63_resolution_refuted",
    "C63_orientation_refuted",
    "C63_modal",
    "C63_modal_frequency"
   ],
   "note": "Reals for double; a file is its list of tokens (white space and the type attributes of the XML arrays left out); what printing makes of a number is a parameter, with six_digits for the default of a stream; one order, straight triangles; file system checks left out; the violated cases have refutation theorems."
  },
  {
   "property": "C64",
   "status": "proved",
   "theorems": [
    "C64_mesh",
    "C64_orientation",
    "C64_pole_refuted",
    "C64_distances",
    "C64_rates",
    "C64_map_digits",
    "C64_inner",
    "C64_faces",
    "C64_both_sides",
    "C64_plane",
    "C64_levee_refuted",
    "C64_range",
    "C64_pole_factor_refuted",
    "C64_default_refuted",
    "C64_coriolis",
    "C64_coriolis_bound",
    "C64_local_coriolis_refuted",
    "C64_manning",
    "C64_manning_rows",
    "C64_manning_range",
    "C64_manning_refuted"
   ],
   "note": "Reals for double, the code's constant for pi; a line of the Manning file is what formatted input makes of it; straight triangles; the Coriolis parameter is stored but its source term is commented out in the code; the violated cases have refutation theorems."
  },
  {
   "property": "C65",
   "status": "proved",
   "theorems": [
    "C65_equations",
    "C65_manufactured",
    "C65_manufactured_data",
    "C65_generator_refuted",
    "C65_bowl",
    "C65_bowl_shore",
    "C65_solitary",
    "C65_solitary_data",
    "C65_solitary_refuted",
    "C65_initial",
    "C65_initial_exact",
    "C65_boundary",
    "C65_source"
   ],
   "note": "Reals for double; classical (pointwise differentiable) solutions; straight triangles; Thacker's solution is the spec, the code only has its initial state; the dispersive equations are those of C58 on a flat bed with waves along x; the violated cases have refutation theorems."
  },
  {
   "property": "C66",
   "status": "proved",
   "theorems": [
    "C66_flags",
    "C66_flags_lower",
    "C66_flags_same",
    "C66_start",
    "C66_first_index",
    "C66_system",
    "C66_rhs_prev",
    "C66_passes_split",
    "C66_passes_join",
    "C66_numbered",
    "C66_vectors",
    "C66_stop",
    "C66_test",
    "C66_loop_split",
    "C66_loop_join",
    "C66_run_split",
    "C66_run_join"
   ],
   "note": "Reals; straight triangles, one order; the linear system is solved exactly (assembly, condensation and numbering are C33 and C34); data of a unit are indexed by the numbers of the undivided mesh; delivery of the message is a hypothesis (the buffers are C19); distributed levees (empty kernels) left out; VecNorm and VecGetSize give the norm and length of the global vector on every rank; the slope limiter is not part of it."
  },
  {
   "property": "C67",
   "status": "proved",
   "theorems": [
    "C67_fields",
    "C67_traces",
    "C67_blocks",
    "C67_system"
   ],
   "note": "Reals; straight triangles, one order; gradients by projection (the default); data of a unit are indexed by the numbers of the undivided mesh; delivery of the messages is a hypothesis (the buffers are C19); equations before condensation (condensation and the serial solution are C58); PETSc assembly and solution and distributed levees left out."
  },
  {
   "property": "C68",
   "status": "proved",
   "theorems": [
    "C68_numbering",
    "C68_first",
    "C68_serial",
    "C68_rows",
    "C68_same_solutions",
    "C68_read_back",
    "C68_row_room",
    "C68_stale_place",
    "C68_empty_refuted",
    "C68_dry_refuted",
    "C68_flag_needed"
   ],
   "note": "One unknown stands for the block of an edge; values of the blocks are parameters (C67 and C58 compute them); delivery of the numbers by cut and side (the buffers are C19) and, on halves whose own side is dry, fresh wet flags of the neighbours (C67) are hypotheses; the PETSc objects and the solver are left out; the violated cases have refutation theorems."
  },
  {
   "property": "C69",
   "status": "proved",
   "theorems": [
    "C69_check",
    "C69_written",
    "C69_written_gn",
    "C69_stage",
    "C69_abort_only",
    "C69_detected",
    "C69_detected_gn",
    "C69_detected_post",
    "C69_limiter",
    "C69_wd_level",
    "C69_mean_depth",
    "C69_wd_hidden",
    "C69_written_implicit",
    "C69_detected_implicit",
    "C69_hidden_refuted",
    "C69_infinite_refuted"
   ],
   "note": "Binary64 values of the standard library (SpecFloat), one NaN; kernels, inverse mass matrix and post-processing are arbitrary functions in the general theorems; in the theorems on detection the slopes of the limiter are arbitrary; the iteration of the implicit solver is an arbitrary function; the output before the first stage is not searched; the distributed solver calls MPI_Abort with error code 0 instead of abort; the violated cases have refutation theorems."
  }
 ]
}
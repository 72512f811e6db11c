{
 "claims": [
  {
   "property": "C01",
   "status": "proved",
   "theorems": [
    "C01_history_independence",
    "C01_same_expression_same_answer",
    "C01_textbook_value",
    "C01_textbook_value_any_history"
   ],
   "note": "Proved for every expression, object and query history. Clamps applied to queried functions: see the split-off refuted property. Values are tied to the textbook meaning (asinh excluded, C04). Complement: C94."
  },
  {
   "property": "C02",
   "status": "proved",
   "theorems": [
    "C02_derivatives"
   ],
   "note": "Every expression without asinh, every reachable object and every regular abscissa; asinh's value and derivative disagree (C04)."
  },
  {
   "property": "C03",
   "status": "proved",
   "theorems": [
    "C03_offset_direct"
   ],
   "note": "Direct queries of every reachable object. Complement: C95."
  },
  {
   "property": "C04",
   "status": "partial",
   "theorems": [
    "C04_asinh_derivative_partial",
    "C04_asinh_refuted"
   ],
   "note": "Refuted for every operand value >= 1: FrHyperbolicTrigonometricFunctions.cpp:217 calls acosh."
  },
  {
   "property": "C05",
   "status": "partial",
   "theorems": [
    "C05_compound_assignment_refuted",
    "C05_compound_assignment_partial"
   ],
   "note": "Refuted: op= acts on the inner function (sin(x) += 1 gives sin(x+1)), and dereferences null on leaf objects. Holds for pass-through objects."
  },
  {
   "property": "C06",
   "status": "proved",
   "theorems": [
    "C06_clamp"
   ],
   "note": "Every reachable clamp of a function not queried before clamping, after any queries. Complement: C96."
  },
  {
   "property": "C07",
   "status": "proved",
   "theorems": [
    "C07_saturate_both"
   ],
   "note": "Every reachable function and abscissa. Complement: C97."
  },
  {
   "property": "C08",
   "status": "proved",
   "theorems": [
    "C08_linear_ramp",
    "C08_cosine_ramp"
   ],
   "note": "Full statement for every reachable ramp object (zero x-offset)."
  },
  {
   "property": "C09",
   "status": "partial",
   "theorems": [
    "C09_linear_setters_refuted",
    "C09_reported_coefficients_partial"
   ],
   "note": "Refuted for every coefficient pair: the setters do not rebuild the evaluated function. Only the coefficient getters follow the setters (partial)."
  },
  {
   "property": "C10",
   "status": "partial",
   "theorems": [
    "C10_tanh_ramp_refuted",
    "C10_tanh_ramp_partial",
    "C10_plateaus_partial",
    "C10_end_point_refuted"
   ],
   "note": "Refuted (query inside, query before the ramp, query inside again); proved for histories of interior queries, and for the plateau values in every history. The ramp is moreover shifted by x0 (end point refuted)."
  },
  {
   "property": "C11",
   "status": "proved",
   "theorems": [
    "C11_swap_is_isometric_involution",
    "C11_frame_position",
    "C11_same_convention_reads_back",
    "C11_quaternion_elements",
    "C11_torsor_point",
    "C11_rotation_axes"
   ],
   "note": "Vectors, quaternions, torsor points, rotation axes and frame positions. Complement: C98."
  },
  {
   "property": "C12",
   "status": "proved",
   "theorems": [
    "C12_transport_rule",
    "C12_same_point",
    "C12_transports_compose",
    "C12_power_invariant",
    "C12_velocity_field"
   ],
   "note": "Full statement: transport rule, transports compose, power does not depend on the reduction point."
  },
  {
   "property": "C13",
   "status": "proved",
   "theorems": [
    "C13_rotation_expressions",
    "C13_preserves_dot_and_cross",
    "C13_product_and_inverse",
    "C13_axes",
    "C13_matrix",
    "C13_matrix_round_trip",
    "C13_normalising_setter"
   ],
   "note": "Full statement."
  },
  {
   "property": "C14",
   "status": "proved",
   "theorems": [
    "C14_cardan_meaning",
    "C14_round_trip",
    "C14_reported_angles_describe_rotation"
   ],
   "note": "Meaning, round trip and reported angles, both conventions; which rotations have undefined angles is in the split-off property. Complement: C99."
  },
  {
   "property": "C15",
   "status": "proved",
   "theorems": [
    "C15_group",
    "C15_points",
    "C15_distances",
    "C15_relative_frames",
    "C15_closure",
    "C15_conventions"
   ],
   "note": "Full statement."
  },
  {
   "property": "C16",
   "status": "proved",
   "theorems": [
    "C16_every_operation_sequence"
   ],
   "note": "Every finite sequence of the well-behaved operations; the three others are in the split-off property. Complement: C100."
  },
  {
   "property": "C17",
   "status": "proved",
   "theorems": [
    "C17_attached",
    "C17_node_operations"
   ],
   "note": "Attachment and placement for every reachable body. Chrono's marker contract is trusted. Complement: C101."
  },
  {
   "property": "C18",
   "status": "proved",
   "theorems": [
    "C18_constructed_at_any_frame",
    "C18_reset_at_any_frame",
    "C18_report_at_any_frame",
    "C18_every_distribution_in_every_frame",
    "C18_add_is_union",
    "C18_assembly_is_union",
    "C18_body_keeps_its_tensor",
    "C18_mass_matrix_energy"
   ],
   "note": "Proved for arbitrary finite mass distributions: tensors built or reset at any unit-quaternion frame describe the distribution, reports at any frame, addition is union, assemblies of any number of bodies are the union at world positions, a body keeps its tensor through every operation other than SetCOG, the mass matrix gives the kinetic energy."
  },
  {
   "property": "C19",
   "status": "proved",
   "theorems": [
    "C19_frame_data",
    "C19_frame_reset",
    "C19_readers",
    "C19_conversion_is_physical"
   ],
   "note": "Data given at a frame and all readers. Complement: C102."
  },
  {
   "property": "C20",
   "status": "proved",
   "theorems": [
    "C20_every_operation_sequence",
    "C20_every_operation",
    "C20_setters_read_back"
   ],
   "note": "Full statement for every operation sequence from a new body (node methods of C17 excluded from the sequences of the first theorem only because their English meaning is false). Chrono's ChBodyAuxRef contract is trusted."
  },
  {
   "property": "C21",
   "status": "proved",
   "theorems": [
    "C21_rigid_field",
    "C21_set_then_read"
   ],
   "note": "Full statement for every reachable body and the six setters, including COG and node readings; also preserved by later calls that do not turn the body."
  },
  {
   "property": "C22",
   "status": "proved",
   "theorems": [
    "C22_wrench",
    "C22_every_state_is_a_wrench",
    "C22_limits",
    "C22_inactive"
   ],
   "note": "Full statement: every setter sequence, every getter, limits, inactivity."
  },
  {
   "property": "C23",
   "status": "proved",
   "theorems": [
    "C23_forces_added_not_removed",
    "C23_forces_logged",
    "C23_remove_absent",
    "C23_nodes_added_not_removed"
   ],
   "note": "Every error-free history of registry calls. Assets are not modelled. Complement: C103."
  },
  {
   "property": "C24",
   "status": "proved",
   "theorems": [
    "C24_unique_paths",
    "C24_path_is_parent_then_label",
    "C24_used_path_throws",
    "C24_path_determines_names"
   ],
   "note": "Every history, exceptions caught or not. Complement: C104."
  },
  {
   "property": "C25",
   "status": "proved",
   "theorems": [
    "C25_empty",
    "C25_remove_each"
   ],
   "note": "Every history and registry. Complement: C148."
  },
  {
   "property": "C26",
   "status": "proved",
   "theorems": [
    "C26_failed_add",
    "C26_unknown_class"
   ],
   "note": "Every failing Add. Complement: C147."
  },
  {
   "property": "C27",
   "status": "proved",
   "theorems": [
    "C27_registries",
    "C27_items",
    "C27_log",
    "C27_remove_absent"
   ],
   "note": "Every error-free history. Chrono's list operations are trusted. Complement: C105."
  },
  {
   "property": "C28",
   "status": "proved",
   "theorems": [
    "C28_resampled_history",
    "C28_same_time_ignored",
    "C28_value_at_age",
    "C28_mean"
   ],
   "note": "Every recorder, new or cleared after use, and every sequence with increments in (0, step]. Complement: C106."
  },
  {
   "property": "C29",
   "status": "proved",
   "theorems": [
    "C29_trapezoidal_rule",
    "C29_exact_on_polylines",
    "C29_linear",
    "C29_monotone",
    "C29_additive",
    "C29_size_mismatch"
   ],
   "note": "Full statement (every number of points)."
  },
  {
   "property": "C30",
   "status": "proved",
   "theorems": [
    "C30_face_integrals"
   ],
   "note": "Every monomial except YZ, XZ, XY, every mesh history. Complement: C107."
  },
  {
   "property": "C31",
   "status": "proved",
   "theorems": [
    "C31_polygon_integrals",
    "C31_polygon_area",
    "C31_polygon_accepted",
    "C31_frame_convention"
   ],
   "note": "Degree <= 2, any number of vertices, any fan apex, both conventions. Complement: C108."
  },
  {
   "property": "C32",
   "status": "proved",
   "theorems": [
    "C32_signed_tetrahedra",
    "C32_watertight_test",
    "C32_closed_mesh",
    "C32_mesh_with_holes",
    "C32_boundary_found",
    "C32_rigid_motion",
    "C32_rigid_motion_holes",
    "C32_box"
   ],
   "note": "Full statement for every consistently oriented closed mesh after any history; extended to meshes with planar holes (boundary search included) and to area, centre of gravity, rigid motions, CreateBox."
  },
  {
   "property": "C33",
   "status": "proved",
   "theorems": [
    "C33_archimedes",
    "C33_centre_of_buoyancy",
    "C33_from_the_mesh"
   ],
   "note": "Full statement; also centre of buoyancy, and the form in terms of GetVolume/GetCOG of the clipped mesh."
  },
  {
   "property": "C34",
   "status": "proved",
   "theorems": [
    "C34_plane",
    "C34_wave"
   ],
   "note": "Plane and Lipschitz wave surfaces. Complement: C109."
  },
  {
   "property": "C35",
   "status": "proved",
   "theorems": [
    "C35_vertex",
    "C35_face",
    "C35_types_distinct",
    "C35_horizontal_plane"
   ],
   "note": "Full statement, plus the distance to a horizontal plane."
  },
  {
   "property": "C36",
   "status": "proved",
   "theorems": [
    "C36_matrix_object",
    "C36_hydrostatic_properties",
    "C36_default_reduction",
    "C36_extents",
    "C36_stiffness_is_derivative"
   ],
   "note": "Any mesh with its borders in the plane z=0, reduction point and density. Complement: C110."
  },
  {
   "property": "C37",
   "status": "proved",
   "theorems": [
    "C37_regular",
    "C37_regular_pressure",
    "C37_deep_api",
    "C37_bed_api",
    "C37_irregular"
   ],
   "note": "Regular field and irregular fields of any size (no stretching, no active ramp), pressure under the dispersion relation. Complement: C111."
  },
  {
   "property": "C38",
   "status": "proved",
   "theorems": [
    "C38_elevation",
    "C38_elevation_irregular",
    "C38_cutoff_nwu",
    "C38_null"
   ],
   "note": "Both conventions; null field for all queries. Complement: C112."
  },
  {
   "property": "C39",
   "status": "proved",
   "theorems": [
    "C39_derivative",
    "C39_wheeler",
    "C39_selection_regular",
    "C39_selection_irregular"
   ],
   "note": "Every model below the switch; selections that are effective. Complement: C144."
  },
  {
   "property": "C40",
   "status": "proved",
   "theorems": [
    "C40_ends",
    "C40_deterministic",
    "C40_exact_exists",
    "C40_residual",
    "C40_accuracy",
    "C40_deep",
    "C40_vector"
   ],
   "note": "Termination for all inputs, residual and absolute accuracy, exact root. Complement: C113."
  },
  {
   "property": "C41",
   "status": "proved",
   "theorems": [
    "C41_pierson_moskowitz",
    "C41_jonswap",
    "C41_nonneg",
    "C41_scale",
    "C41_jonswap_peak",
    "C41_pm_peak"
   ],
   "note": "Improper integrals; sign, scaling and peaks. Complement: C114."
  },
  {
   "property": "C42",
   "status": "proved",
   "theorems": [
    "C42_amplitudes",
    "C42_energy",
    "C42_directions",
    "C42_uniform"
   ],
   "note": "Lists of length other than 0 and 3, one and two dimensional, and the uniform overload. Complement: C115."
  },
  {
   "property": "C43",
   "status": "proved",
   "theorems": [
    "C43_degrees",
    "C43_list"
   ],
   "note": "Degrees: all conventions. GetWaveDirections: all units and conventions. Complement: C116."
  },
  {
   "property": "C44",
   "status": "proved",
   "theorems": [
    "C44_ends",
    "C44_found",
    "C44_jonswap",
    "C44_pierson_moskowitz"
   ],
   "note": "Real arithmetic: every function; the two spectra in the given range. Complement: C117."
  },
  {
   "property": "C45",
   "status": "proved",
   "theorems": [
    "C45_weight",
    "C45_tangent",
    "C45_balance",
    "C45_moment"
   ],
   "note": "Every line initialised and updated in any way, both conventions, elastic or not: tangent, weight per length, resultant and moment of the end tensions. Complement: C118."
  },
  {
   "property": "C46",
   "status": "proved",
   "theorems": [
    "C46_derivative",
    "C46_definite"
   ],
   "note": "The matrix is the exact derivative of the residual (directional derivative in every direction), symmetric and positive definite, for every non-vertical tension."
  },
  {
   "property": "C47",
   "status": "proved",
   "theorems": [
    "C47_read_back",
    "C47_consistent",
    "C47_constructor"
   ],
   "note": "Setters, getters and the constructor. Complement: C119."
  },
  {
   "property": "C48",
   "status": "proved",
   "theorems": [
    "C48_created",
    "C48_motion",
    "C48_motion_any_times",
    "C48_velocity_from_body",
    "C48_velocity_read",
    "C48_velocity_in_frame",
    "C48_perturbation"
   ],
   "note": "All update sequences, both velocity sources. Rates below the resolution, NED velocities and restarts: split-off property. Complement: C120."
  },
  {
   "property": "C49",
   "status": "proved",
   "theorems": [
    "C49_reconfiguration"
   ],
   "note": "Every abscissa but the cached one. Complement: C145."
  },
  {
   "property": "C50",
   "status": "partial",
   "theorems": [
    "C50_torque_refuted"
   ],
   "note": "Refuted: the torque uses the wrong mixed integrals of C30; explicit box."
  },
  {
   "property": "C51",
   "status": "proved",
   "theorems": [
    "C51_solid_inertia"
   ],
   "note": "Closed meshes. Meshes with boundary are not modelled for inertia (uninitialised integrals). Complement: C121."
  },
  {
   "property": "C52",
   "status": "proved",
   "theorems": [
    "C52_history_independent",
    "C52_bounding_box"
   ],
   "note": "Full statement."
  },
  {
   "property": "C53",
   "status": "proved",
   "theorems": [
    "C53_plane",
    "C53_wave",
    "C53_plane_exact",
    "C53_archimedes",
    "C53_placed"
   ],
   "note": "Plane (any parameters), exact version without projection, end-to-end Archimedes with the default parameters, Lipschitz wave surfaces with threshold > tolerance (the defaults are equal: open). garbage_collection's renumbering is not modelled."
  },
  {
   "property": "C54",
   "status": "proved",
   "theorems": [
    "C54_force_with_tide"
   ],
   "note": "Exact force formula. Complement: C122."
  },
  {
   "property": "C55",
   "status": "partial",
   "theorems": [
    "C55_import_partial",
    "C55_import_refuted"
   ],
   "note": "Refuted: translation is applied before rotation; proved when one of them is trivial."
  },
  {
   "property": "C56",
   "status": "proved",
   "theorems": [
    "C56_matrix"
   ],
   "note": "Closed form of all coefficients. Complement: C146."
  },
  {
   "property": "C57",
   "status": "proved",
   "theorems": [
    "C57_converged",
    "C57_displacement",
    "C57_terminates",
    "C57_moves",
    "C57_at_equilibrium",
    "C57_heave_step"
   ],
   "note": "Every clipping function and linear solver. Complement: C123."
  },
  {
   "property": "C58",
   "status": "proved",
   "theorems": [
    "C58_value",
    "C58_equilibrium",
    "C58_first_order_exact"
   ],
   "note": "Value, balance and first order agreement with the exact hydrostatic load. Complement: C124."
  },
  {
   "property": "C59",
   "status": "proved",
   "theorems": [
    "C59_step",
    "C59_converges"
   ],
   "note": "Exact step and convergence (zeta + pi h/T < 1). Complement: C125."
  },
  {
   "property": "C60",
   "status": "proved",
   "theorems": [
    "C60_mean_motion"
   ],
   "note": "The optional position correction recorders are not modelled. Complement: C126."
  },
  {
   "property": "C61",
   "status": "proved",
   "theorems": [
    "C61_irregular",
    "C61_optim"
   ],
   "note": "All four queries (regular); elevation after Initialize and every step (irregular). Complement: C127."
  },
  {
   "property": "C62",
   "status": "proved",
   "theorems": [
    "C62_first",
    "C62_fresh"
   ],
   "note": "Every sea, period and field whose deep-water flag agrees with the sea. Complement: C128."
  },
  {
   "property": "C63",
   "status": "proved",
   "theorems": [
    "C63_normalised",
    "C63_bandwidth"
   ],
   "note": "Integral one (Wallis), symmetry, maximum; the band search succeeds for natural factors up to 100000. Complement: C129."
  },
  {
   "property": "C64",
   "status": "proved",
   "theorems": [
    "C64_ready",
    "C64_directions"
   ],
   "note": "Every history without file ending with Initialize. Complement: C130."
  },
  {
   "property": "C65",
   "status": "proved",
   "theorems": [
    "C65_round_trip"
   ],
   "note": "Equality of the whole query state. Text conversion of numbers by the JSON library is taken as exact. Complement: C131."
  },
  {
   "property": "C66",
   "status": "proved",
   "theorems": [
    "C66_solve",
    "C66_damping_ends",
    "C66_starts",
    "C66_unique",
    "C66_accuracy"
   ],
   "note": "Uniqueness and accuracy by monotonicity of the residual. Convergence of the Newton loop itself is not claimed. Complement: C132."
  },
  {
   "property": "C67",
   "status": "proved",
   "theorems": [
    "C67_paid_out",
    "C67_constant_speed",
    "C67_strained"
   ],
   "note": "All histories; bounds of the strained length with an explicit error. Complement: C133."
  },
  {
   "property": "C68",
   "status": "proved",
   "theorems": [
    "C68_one_force_each",
    "C68_applied",
    "C68_third_law"
   ],
   "note": "Proved for reachable bodies and every node, using the wrench reading of C22; the third law is stated when the far end is exactly at the ending node."
  },
  {
   "property": "C69",
   "status": "proved",
   "theorems": [
    "C69_vector",
    "C69_angle",
    "C69_compass",
    "C69_speed",
    "C69_ramp",
    "C69_no_ramp",
    "C69_relative",
    "C69_fluid"
   ],
   "note": "FrUniformField is the only field of the repository; the position given to the field has no effect in it. Complement: C134."
  },
  {
   "property": "C70",
   "status": "proved",
   "theorems": [
    "C70_coefficients",
    "C70_coefficient",
    "C70_linear",
    "C70_dissipates",
    "C70_drift",
    "C70_quadratic",
    "C70_resistance",
    "C70_resistance_at_rest"
   ],
   "note": "ITTC excludes Re = 100. Complement: C135."
  },
  {
   "property": "C71",
   "status": "proved",
   "theorems": [
    "C71_setters",
    "C71_force",
    "C71_magnitude",
    "C71_opposes"
   ],
   "note": "'Opposes' is proved for exponents 1 and 2. Complement: C136."
  },
  {
   "property": "C72",
   "status": "proved",
   "theorems": [
    "C72_wind",
    "C72_current",
    "C72_calm",
    "C72_pushes",
    "C72_arm",
    "C72_wind_initialize",
    "C72_current_initialize",
    "C72_current_accepts"
   ],
   "note": "Level bodies (any heading). The constants of the standard (0.7, 0.9, 0.07, 0.6) are in the statement. Complement: C137."
  },
  {
   "property": "C73",
   "status": "proved",
   "theorems": [
    "C73_rows",
    "C73_interpolates",
    "C73_symmetric"
   ],
   "note": "Tables whose first angle is exactly 0 or -180 degrees. JSON parsing is not modelled. Complement: C138."
  },
  {
   "property": "C74",
   "status": "proved",
   "theorems": [
    "C74_force",
    "C74_calm",
    "C74_horizontal",
    "C74_symmetric"
   ],
   "note": "Level bodies for the value of the force; any attitude for its being horizontal."
  },
  {
   "property": "C75",
   "status": "proved",
   "theorems": [
    "C75_convolution",
    "C75_superposition",
    "C75_at_rest",
    "C75_same_time",
    "C75_at_system_time",
    "C75_applied"
   ],
   "note": "Interp1dLinear is a contract (linear, fails outside the table). Steps longer than the recorder step are outside C75_convolution but inside C75_superposition. The inertia part of the radiation model is not modelled here."
  },
  {
   "property": "C76",
   "status": "proved",
   "theorems": [
    "C76_one_body"
   ],
   "note": "One body. Complement: C139."
  },
  {
   "property": "C77",
   "status": "proved",
   "theorems": [
    "C77_once",
    "C77_refused"
   ],
   "note": "All masks. Complement: C140."
  },
  {
   "property": "C78",
   "status": "proved",
   "theorems": [
    "C78_window",
    "C78_ready"
   ],
   "note": "Databases of at least two frequencies, time step at most half of the persistence. Complement: C141."
  },
  {
   "property": "C79",
   "status": "proved",
   "theorems": [
    "C79_mapper",
    "C79_count"
   ],
   "note": "All sequences of mappings. Complement: C142."
  },
  {
   "property": "C80",
   "status": "proved",
   "theorems": [
    "C80_kernels",
    "C80_speed_kernels",
    "C80_refused",
    "C80_added_mass"
   ],
   "note": "HDF5 reading is not modelled. Complement: C143."
  },
  {
   "property": "C81",
   "status": "proved",
   "theorems": [
    "C81_load",
    "C81_nodes",
    "C81_regular",
    "C81_irregular"
   ],
   "note": "Interp1dLinear is a contract (linear, fails outside the table). Sums are written in one order. HDF5 reading is not modelled."
  },
  {
   "property": "C82",
   "status": "proved",
   "theorems": [
    "C82_superposition",
    "C82_bound",
    "C82_harmonic"
   ],
   "note": "On the load of C81."
  },
  {
   "property": "C83",
   "status": "proved",
   "theorems": [
    "C83_excitation_is_sum"
   ],
   "note": "Full mask and rigid modes; the tables may be anything."
  },
  {
   "property": "C84",
   "status": "proved",
   "theorems": [
    "C84_initialisation"
   ],
   "note": "For non-empty masks and waves with at least one direction."
  },
  {
   "property": "C85",
   "status": "proved",
   "theorems": [
    "C85_same_components"
   ],
   "note": "Same frequencies and directions. Complement: C149."
  },
  {
   "property": "C86",
   "status": "partial",
   "theorems": [
    "C86_heading_refuted"
   ],
   "note": "Refuted: the direction in the world is used whatever the heading."
  },
  {
   "property": "C87",
   "status": "proved",
   "theorems": [
    "C87_prefix"
   ],
   "note": "n from 1 to 6. Complement: C150."
  },
  {
   "property": "C88",
   "status": "proved",
   "theorems": [
    "C88_drift",
    "C88_outside"
   ],
   "note": "LookupTable2d is a contract (bilinear, fails outside)."
  },
  {
   "property": "C89",
   "status": "proved",
   "theorems": [
    "C89_quadratic",
    "C89_steady",
    "C89_steady_irregular"
   ],
   "note": "On the load of C88; steady for regular and irregular fields."
  },
  {
   "property": "C90",
   "status": "partial",
   "theorems": [
    "C90_direction_refuted",
    "C90_axes_refuted"
   ],
   "note": "Refuted twice: the relative direction is not reduced (directions below the heading stop the program), and the force is applied in the axes of the body, not of the equilibrium frame."
  },
  {
   "property": "C91",
   "status": "proved",
   "theorems": [
    "C91_wrench",
    "C91_affine_exact",
    "C91_closed"
   ],
   "note": "The pressure field is any function; the clipping of the mesh is covered by the mesh properties."
  },
  {
   "property": "C92",
   "status": "partial",
   "theorems": [
    "C92_still_water_refuted"
   ],
   "note": "Refuted for every database with positive frequencies: the null wave field reports the frequency 0, outside of the table."
  },
  {
   "property": "C93",
   "status": "partial",
   "theorems": [
    "C93_ramp_refuted"
   ],
   "note": "Refuted: the amplitudes do not include the ramp."
  },
  {
   "property": "C94",
   "status": "partial",
   "theorems": [
    "C94_history_independence_refuted"
   ],
   "note": "Refuted: FrClampFunction's constructor copies the cache of the clamped function. (Split from C01.)"
  },
  {
   "property": "C95",
   "status": "partial",
   "theorems": [
    "C95_copy_forgets_offset_refuted",
    "C95_offset_in_expression_refuted"
   ],
   "note": "Refuted: the copy constructor drops m_xOffset. (Split from C03.)"
  },
  {
   "property": "C96",
   "status": "partial",
   "theorems": [
    "C96_clamp_refuted"
   ],
   "note": "Refuted: non zero derivative inside the clamped zone, from the copied cache. (Split from C06.)"
  },
  {
   "property": "C97",
   "status": "partial",
   "theorems": [
    "C97_one_sided_refuted"
   ],
   "note": "Refuted (constant output): the default bounds are inverted infinities. (Split from C07.)"
  },
  {
   "property": "C98",
   "status": "partial",
   "theorems": [
    "C98_frame_axes_nwu_partial",
    "C98_frame_axes_ned_refuted"
   ],
   "note": "Right in NWU (partial); refuted in NED: FrFrame::Set(pos,e1,e2,e3,NED) ignores the convention for the axes. (Split from C11.)"
  },
  {
   "property": "C99",
   "status": "partial",
   "theorems": [
    "C99_undefined_roll",
    "C99_gimbal_refuted"
   ],
   "note": "Refuted: the roll is left uninitialised exactly when the x axis points up (C99_undefined_roll). (Split from C14.)"
  },
  {
   "property": "C100",
   "status": "partial",
   "theorems": [
    "C100_mul_assign_refuted",
    "C100_mul_assign_actual",
    "C100_rotate_radians_refuted",
    "C100_rotate_takes_degrees",
    "C100_rotate_parent_takes_degrees",
    "C100_project_partial",
    "C100_project_refuted"
   ],
   "note": "Refuted: operator*= composes on the left, RotateX..(radians) converts degrees, ProjectToXYPlane drops the wrong components with roll and pitch; the actual meanings are proved. (Split from C16.)"
  },
  {
   "property": "C101",
   "status": "partial",
   "theorems": [
    "C101_node_axes_actual",
    "C101_translate_in_body_refuted",
    "C101_rotate_in_body_refuted",
    "C101_rotate_in_world_refuted"
   ],
   "note": "Refuted: the three methods act in the node's own axes (C101_node_axes_actual proves it). (Split from C17.)"
  },
  {
   "property": "C102",
   "status": "partial",
   "theorems": [
    "C102_cog_data_partial",
    "C102_cog_nwu_partial",
    "C102_cog_data_refuted",
    "C102_set_at_cog_refuted"
   ],
   "note": "Refuted: the constructor does not convert the inertia coefficients (right iff Ixy = Ixz = 0), and SetInertiaTensorAtCOG ignores the convention. (Split from C19.)"
  },
  {
   "property": "C103",
   "status": "partial",
   "theorems": [
    "C103_readd_removed_refuted"
   ],
   "note": "Refuted for every force: its path stays registered, and the failing call leaves the force in the list. (Split from C23.)"
  },
  {
   "property": "C104",
   "status": "partial",
   "theorems": [
    "C104_names_with_slash_refuted"
   ],
   "note": "Refuted for names containing '/': the second object is then refused. (Split from C24.)"
  },
  {
   "property": "C105",
   "status": "partial",
   "theorems": [
    "C105_readd_refuted",
    "C105_clear_refuted",
    "C105_cable_hinges_refuted"
   ],
   "note": "All three refuted: re-adding after removal throws, Clear keeps log and paths, cable hinges stay. (Split from C27.)"
  },
  {
   "property": "C106",
   "status": "partial",
   "theorems": [
    "C106_large_steps_refuted"
   ],
   "note": "Refuted: one interpolated value is stored per call. (Split from C28.)"
  },
  {
   "property": "C107",
   "status": "partial",
   "theorems": [
    "C107_mixed_monomials_refuted"
   ],
   "note": "Refuted: CalcFacePolynomialIntegrals combines the wrong terms. (Split from C30.)"
  },
  {
   "property": "C108",
   "status": "partial",
   "theorems": [
    "C108_uninitialised_refuted",
    "C108_cubic_refuted"
   ],
   "note": "Refuted: x^2y, y^2x depend on uninitialised variables, x^3, y^3 are wrong. (Split from C31.)"
  },
  {
   "property": "C109",
   "status": "partial",
   "theorems": [
    "C109_jump_refuted"
   ],
   "note": "Refuted: the fallback after 1001 iterations returns the origin. (Split from C34.)"
  },
  {
   "property": "C110",
   "status": "partial",
   "theorems": [
    "C110_recompute_refuted",
    "C110_moonpool_refuted"
   ],
   "note": "Refuted: a second ComputeProperties adds radii and area again; the inner rim counts with the wrong sign. (Split from C36.)"
  },
  {
   "property": "C111",
   "status": "partial",
   "theorems": [
    "C111_bed_refuted",
    "C111_ramp_refuted"
   ],
   "note": "Refuted: the deep-water switch leaks through the bed (bounded by exp(-3)), an active ramp's rate is missing in the acceleration. (Split from C37.)"
  },
  {
   "property": "C112",
   "status": "partial",
   "theorems": [
    "C112_velocity_partial",
    "C112_velocity_irregular_partial",
    "C112_velocity_refuted",
    "C112_velocity_actual",
    "C112_pressure_refuted",
    "C112_cutoff_refuted"
   ],
   "note": "Refuted: right only where y sin(direction) = 0 (y is reflected twice); NED pressure has the wrong sign; NED cut-off is reversed. (Split from C38.)"
  },
  {
   "property": "C113",
   "status": "partial",
   "theorems": [
    "C113_relative_accuracy_refuted"
   ],
   "note": "Refuted for long waves. (Split from C40.)"
  },
  {
   "property": "C114",
   "status": "partial",
   "theorems": [
    "C114_nonneg_refuted"
   ],
   "note": "Refuted: gamma=81 (only a warning) gives a negative density everywhere. (Split from C41.)"
  },
  {
   "property": "C115",
   "status": "partial",
   "theorems": [
    "C115_three_refuted",
    "C115_three_directions_refuted",
    "C115_widths_refuted",
    "C115_two_refuted",
    "C115_no_model_refuted"
   ],
   "note": "Refuted: three frequencies or directions read out of range; the widths add up to more than the range; several directions without model. (Split from C42.)"
  },
  {
   "property": "C116",
   "status": "partial",
   "theorems": [
    "C116_radians_partial",
    "C116_radians_refuted",
    "C116_vector_partial",
    "C116_vector_refuted"
   ],
   "note": "NWU/goes-to only (partial); refuted otherwise: angles in radians are normalised modulo 360. (Split from C43.)"
  },
  {
   "property": "C117",
   "status": "partial",
   "theorems": [
    "C117_binary64_refuted"
   ],
   "note": "Refuted in binary64 (SpecFloat): endless loop on FrTestWaveSpectrum. (Split from C44.)"
  },
  {
   "property": "C118",
   "status": "partial",
   "theorems": [
    "C118_neutral_refuted",
    "C118_stale_refuted"
   ],
   "note": "Refuted: a neutrally buoyant cable divides by zero, and changed properties do not change the weight until the next Initialize. (Split from C45.)"
  },
  {
   "property": "C119",
   "status": "partial",
   "theorems": [
    "C119_make_refuted"
   ],
   "note": "Refuted: the maker permutes its three arguments. (Split from C47.)"
  },
  {
   "property": "C120",
   "status": "partial",
   "theorems": [
    "C120_slow_refuted",
    "C120_restart_refuted",
    "C120_velocity_ned_refuted",
    "C120_velocity_in_frame_ned_refuted"
   ],
   "note": "Refuted: slow velocities (v^2 <= FLT_EPSILON) are ignored, NED velocities are not converted, ForceInitialize during the simulation restarts the clock. (Split from C48.)"
  },
  {
   "property": "C121",
   "status": "partial",
   "theorems": [
    "C121_shell_mass_refuted"
   ],
   "note": "Refuted: mass = density*volume. (Split from C51.)"
  },
  {
   "property": "C122",
   "status": "partial",
   "theorems": [
    "C122_tide_refuted"
   ],
   "note": "Refuted: the pressure is counted from z=0, the force lacks rho*g*h*waterplane area. (Split from C54.)"
  },
  {
   "property": "C123",
   "status": "partial",
   "theorems": [
    "C123_offset_refuted",
    "C123_uninitialised_refuted",
    "C123_submerged_refuted",
    "C123_exhausted_refuted",
    "C123_heading_refuted"
   ],
   "note": "Refuted: offset body, uninitialised first move, submerged body (empty polygon set indexed), iteration counter shared by calls, correction applied about body axes. (Split from C57.)"
  },
  {
   "property": "C124",
   "status": "partial",
   "theorems": [
    "C124_mesh_maker_refuted",
    "C124_vertical_refuted"
   ],
   "note": "Refuted: the maker from a mesh reduces the stiffness at the mesh origin; bow up 90 degrees reads an uninitialised roll. (Split from C58.)"
  },
  {
   "property": "C125",
   "status": "partial",
   "theorems": [
    "C125_heading_wrap_refuted",
    "C125_restart_refuted"
   ],
   "note": "Refuted: the heading difference across pi is not reduced, Initialize does not reset the clock. (Split from C59.)"
  },
  {
   "property": "C126",
   "status": "partial",
   "theorems": [
    "C126_uninitialised_refuted"
   ],
   "note": "Refuted: m_prevTime is uninitialised. (Split from C60.)"
  },
  {
   "property": "C127",
   "status": "partial",
   "theorems": [
    "C127_update_refuted"
   ],
   "note": "Refuted. (Split from C61.)"
  },
  {
   "property": "C128",
   "status": "partial",
   "theorems": [
    "C128_history_refuted"
   ],
   "note": "Refuted: the deep-water flag set by a short period persists. (Split from C62.)"
  },
  {
   "property": "C129",
   "status": "partial",
   "theorems": [
    "C129_two_directions_refuted",
    "C129_half_turn_refuted"
   ],
   "note": "Refuted: two directions keep less than 20 % of the energy; undefined beyond half a turn for non integer 2s. (Split from C63.)"
  },
  {
   "property": "C130",
   "status": "partial",
   "theorems": [
    "C130_none_refuted",
    "C130_order_refuted",
    "C130_seed_refuted",
    "C130_direction_refuted",
    "C130_late_frequencies_refuted"
   ],
   "note": "Refuted: NONE dereferences null, spectrum after directions, seeded phases overwritten, late mean direction ignored, late frequencies leave phases behind. (Split from C64.)"
  },
  {
   "property": "C131",
   "status": "partial",
   "theorems": [
    "C131_optim_refuted"
   ],
   "note": "Refuted: amplitudes of its own spectrum. (Split from C65.)"
  },
  {
   "property": "C132",
   "status": "partial",
   "theorems": [
    "C132_short_refuted",
    "C132_silent_refuted",
    "C132_vertical_refuted"
   ],
   "note": "Refuted: silent non-convergence, singular vertical case, short inelastic line. (Split from C66.)"
  },
  {
   "property": "C133",
   "status": "partial",
   "theorems": [
    "C133_late_refuted"
   ],
   "note": "Refuted: it pays out for the whole elapsed time. (Split from C67.)"
  },
  {
   "property": "C134",
   "status": "partial",
   "theorems": [
    "C134_relative_ned_partial",
    "C134_relative_ned_refuted"
   ],
   "note": "Refuted: GetRelativeVelocityInFrame with NED returns NWU components. (Split from C69.)"
  },
  {
   "property": "C135",
   "status": "partial",
   "theorems": [
    "C135_check_partial",
    "C135_check_refuted",
    "C135_resistance_refuted",
    "C135_resistance_current_refuted"
   ],
   "note": "Refuted: the check is on the sign of coefficients, not of the form; ITTC resistance divides by zero at Re = 100 and ignores the current. (Split from C70.)"
  },
  {
   "property": "C136",
   "status": "partial",
   "theorems": [
    "C136_cubic_refuted",
    "C136_power_refuted"
   ],
   "note": "Refuted: a cubic term |u| u u loses its sign; velocities of the body origin with a force at the centre of gravity can give positive power. (Split from C71.)"
  },
  {
   "property": "C137",
   "status": "partial",
   "theorems": [
    "C137_xcenter_refuted",
    "C137_capsized_refuted"
   ],
   "note": "Refuted: m_xCenter is read without having been set; a capsized body is pushed against the flow. (Split from C72.)"
  },
  {
   "property": "C138",
   "status": "partial",
   "theorems": [
    "C138_gap_refuted",
    "C138_five_degrees_refuted"
   ],
   "note": "Refuted: no wrap-around between the last direction and the first unless a row points ahead; rows within 0.1 rad of the bow make the completed half lose a row. (Split from C73.)"
  },
  {
   "property": "C139",
   "status": "partial",
   "theorems": [
    "C139_fleet_partial",
    "C139_other_bodies_refuted",
    "C139_astern_refuted"
   ],
   "note": "Refuted: with several bodies the speed terms of all of them are added to the force on each (the _fleet_partial theorem says exactly what is computed), and the speed is a norm, so going astern gives the corrections of going ahead. (Split from C76.)"
  },
  {
   "property": "C140",
   "status": "partial",
   "theorems": [
    "C140_again_refuted"
   ],
   "note": "Refuted: SetMask appends to the list of degrees of freedom, so a mask given again counts them twice and the radiation force doubles. (Split from C77.)"
  },
  {
   "property": "C141",
   "status": "partial",
   "theorems": [
    "C141_window_refuted"
   ],
   "note": "Refuted: one frequency, or a time step above half of the persistence, divides by zero. (Split from C78.)"
  },
  {
   "property": "C142",
   "status": "partial",
   "theorems": [
    "C142_remap_refuted"
   ],
   "note": "Refuted: the old body still answers with it. (Split from C79.)"
  },
  {
   "property": "C143",
   "status": "partial",
   "theorems": [
    "C143_again_refuted"
   ],
   "note": "Refuted: kernels given again are appended and never used. (Split from C80.)"
  },
  {
   "property": "C144",
   "status": "partial",
   "theorems": [
    "C144_above_refuted",
    "C144_three_refuted",
    "C144_selection_regular_refuted",
    "C144_selection_irregular_refuted",
    "C144_profiles_differ"
   ],
   "note": "Refuted above the switch (k too large) for Vertical, Extrapol, Delta, HDelta; Vertical and Extrapol (and, for the regular field, all but Wheeler) are not effective when selected. (Split from C39.)"
  },
  {
   "property": "C145",
   "status": "partial",
   "theorems": [
    "C145_reconfiguration_refuted"
   ],
   "note": "Refuted: the cache is not invalidated. (Split from C49.)"
  },
  {
   "property": "C146",
   "status": "partial",
   "theorems": [
    "C146_ned_refuted",
    "C146_offset_refuted"
   ],
   "note": "Refuted for NED reduction points (the height of the COG is negated) and for a body away from the world origin (the mesh is placed without the horizontal position). (Split from C56.)"
  },
  {
   "property": "C147",
   "status": "partial",
   "theorems": [
    "C147_failed_add_refuted"
   ],
   "note": "Refuted for every failing Add. (Split from C26.)"
  },
  {
   "property": "C148",
   "status": "partial",
   "theorems": [
    "C148_remove_all_refuted"
   ],
   "note": "Refuted: the range-for over the vector shortened by Remove is undefined behaviour for every non-empty list. (Split from C25.)"
  },
  {
   "property": "C149",
   "status": "partial",
   "theorems": [
    "C149_new_waves_refuted"
   ],
   "note": "Refuted: m_Fhdb is computed only when empty, so the old coefficients stay. (Split from C85.)"
  },
  {
   "property": "C150",
   "status": "partial",
   "theorems": [
    "C150_single_refuted"
   ],
   "note": "Refuted: any single other degree of freedom gets a zero load, because the tables are expanded to six rows and then read by mode number. (Split from C87.)"
  },
  {
   "property": "C151",
   "status": "proved",
   "theorems": [
    "C151_mass",
    "C151_inverse"
   ],
   "note": "The inverse of the matrix library (MatrixMN::Inverse) is a contract: what it returns is the inverse."
  },
  {
   "property": "C152",
   "status": "proved",
   "theorems": [
    "C152_equations",
    "C152_momenta",
    "C152_pairwise",
    "C152_work"
   ],
   "note": "All bodies active. The solver of Chrono that calls these functions is not modelled."
  },
  {
   "property": "C153",
   "status": "proved",
   "theorems": [
    "C153_residual",
    "C153_diagonal",
    "C153_matrix"
   ],
   "note": "State places of six components that do not overlap."
  },
  {
   "property": "C154",
   "status": "partial",
   "theorems": [
    "C154_linear_refuted",
    "C154_product_partial",
    "C154_product_refuted",
    "C154_assembly_refuted"
   ],
   "note": "Refuted: the coupled inverse is used only if the vector equals the forces of the body, MultiplyAndAdd reads the vector from its beginning (right for place 0: partial), Build_M has diagonal blocks only."
  },
  {
   "property": "C155",
   "status": "partial",
   "theorems": [
    "C155_inertia_refuted"
   ],
   "note": "Refuted: the inverse is computed by SetupInitial only."
  },
  {
   "property": "C156",
   "status": "partial",
   "theorems": [
    "C156_fixed_refuted"
   ],
   "note": "Refuted: blocks of the inverse of the whole matrix are used, not the inverse of the remaining block."
  },
  {
   "property": "C157",
   "status": "partial",
   "theorems": [
    "C157_heading_refuted"
   ],
   "note": "Refuted: the matrix of the database is applied to components in world axes."
  },
  {
   "property": "C158",
   "status": "proved",
   "theorems": [
    "C158_placed",
    "C158_from_nodes"
   ],
   "note": "Exact arithmetic; the reference direction must not be nearly parallel to the tube (or both perpendicular to the first axis)."
  },
  {
   "property": "C159",
   "status": "proved",
   "theorems": [
    "C159_law",
    "C159_upright"
   ],
   "note": "For a turned body the axes are turned twice: see C163. Node acceleration is a parameter."
  },
  {
   "property": "C160",
   "status": "proved",
   "theorems": [
    "C160_sum",
    "C160_total"
   ],
   "note": "All elements on one body."
  },
  {
   "property": "C161",
   "status": "proved",
   "theorems": [
    "C161_passive"
   ],
   "note": "Non negative coefficients. Holds also with the axes of C163."
  },
  {
   "property": "C162",
   "status": "proved",
   "theorems": [
    "C162_division"
   ],
   "note": "Each element longer than FLT_EPSILON."
  },
  {
   "property": "C163",
   "status": "partial",
   "theorems": [
    "C163_turned_refuted"
   ],
   "note": "Refuted: the flow is projected in the body and then in the frame of the node in the world, so the rotation of the body is applied twice."
  },
  {
   "property": "C164",
   "status": "partial",
   "theorems": [
    "C164_current_refuted"
   ],
   "note": "Refuted: the flag of the composite is not passed on; that of the elements is not initialised."
  },
  {
   "property": "C165",
   "status": "partial",
   "theorems": [
    "C165_reference_refuted"
   ],
   "note": "Refuted: the fallback axis is always x, so a tube along x fails."
  },
  {
   "property": "C166",
   "status": "partial",
   "theorems": [
    "C166_inertia_refuted"
   ],
   "note": "Refuted: (1 + ca) multiplies the relative acceleration, so the Froude-Krylov part acts on the acceleration of the body too."
  },
  {
   "property": "C167",
   "status": "proved",
   "theorems": [
    "C167_properties",
    "C167_option"
   ],
   "note": ""
  },
  {
   "property": "C168",
   "status": "partial",
   "theorems": [
    "C168_nested_refuted"
   ],
   "note": "Refuted: an inner composite is initialised before it receives the option."
  },
  {
   "property": "C169",
   "status": "partial",
   "theorems": [
    "C169_round_refuted"
   ],
   "note": "Refuted: the quadratic law is applied component by component."
  },
  {
   "property": "C170",
   "status": "proved",
   "theorems": [
    "C170_relative_frames"
   ],
   "note": "Contract of the relative coordinates of the Chrono link."
  },
  {
   "property": "C171",
   "status": "proved",
   "theorems": [
    "C171_relative_velocities"
   ],
   "note": ""
  },
  {
   "property": "C172",
   "status": "partial",
   "theorems": [
    "C172_velocity_of_node1_refuted"
   ],
   "note": "Refuted: the opposite of the other velocity is returned, without the transport by the relative rotation."
  },
  {
   "property": "C173",
   "status": "partial",
   "theorems": [
    "C173_velocity_convention_refuted"
   ],
   "note": "Refuted: the argument is ignored."
  },
  {
   "property": "C174",
   "status": "proved",
   "theorems": [
    "C174_reactions"
   ],
   "note": "The reaction of the solver is a parameter (on the body of node 1, at node 1)."
  },
  {
   "property": "C175",
   "status": "proved",
   "theorems": [
    "C175_angle_tracking"
   ],
   "note": "Within 0.0003 rad near whole turns, where the axis of the rotation is not computed; exact elsewhere. From a new link at angle 0."
  },
  {
   "property": "C176",
   "status": "proved",
   "theorems": [
    "C176_turns"
   ],
   "note": ""
  },
  {
   "property": "C177",
   "status": "proved",
   "theorems": [
    "C177_rest_angle"
   ],
   "note": "Within 0.0003 rad near 0."
  },
  {
   "property": "C178",
   "status": "partial",
   "theorems": [
    "C178_negative_rest_angle_refuted"
   ],
   "note": "Refuted: the rest angle is the unsigned angle of the rotation."
  },
  {
   "property": "C179",
   "status": "proved",
   "theorems": [
    "C179_revolute_spring"
   ],
   "note": ""
  },
  {
   "property": "C180",
   "status": "proved",
   "theorems": [
    "C180_prismatic_spring"
   ],
   "note": ""
  },
  {
   "property": "C181",
   "status": "partial",
   "theorems": [
    "C181_clamp_revolute_refuted"
   ],
   "note": "Refuted: the target is the unsigned angle."
  },
  {
   "property": "C182",
   "status": "partial",
   "theorems": [
    "C182_clamp_prismatic_refuted"
   ],
   "note": "Refuted: the x axis of the motor is -z of the node, the target is +z."
  },
  {
   "property": "C183",
   "status": "partial",
   "theorems": [
    "C183_motor_convention_refuted"
   ],
   "note": "Refuted: the force in the node does not follow the convention, so the result has the wrong sign."
  },
  {
   "property": "C184",
   "status": "proved",
   "theorems": [
    "C184_motor_wrenches"
   ],
   "note": ""
  },
  {
   "property": "C185",
   "status": "proved",
   "theorems": [
    "C185_masks"
   ],
   "note": "Except the prismatic-revolute type: C186."
  },
  {
   "property": "C186",
   "status": "partial",
   "theorems": [
    "C186_mask_type_refuted"
   ],
   "note": "Refuted: prismatic-revolute blocks nothing; the type becomes CUSTOM."
  },
  {
   "property": "C187",
   "status": "proved",
   "theorems": [
    "C187_flags"
   ],
   "note": ""
  },
  {
   "property": "C188",
   "status": "partial",
   "theorems": [
    "C188_motor_state_refuted"
   ],
   "note": "Refuted: SetDisabled(false) starts the motor of a broken link; Motorize does not remove the former motor."
  },
  {
   "property": "C189",
   "status": "proved",
   "theorems": [
    "C189_planes"
   ],
   "note": "The sign of the distance is that of NWU: C190."
  },
  {
   "property": "C190",
   "status": "partial",
   "theorems": [
    "C190_signed_distance_refuted"
   ],
   "note": "Refuted for the planes of normal Y and Z."
  },
  {
   "property": "C191",
   "status": "proved",
   "theorems": [
    "C191_point_on_line"
   ],
   "note": "The free axis is x in the solver (contract)."
  },
  {
   "property": "C192",
   "status": "proved",
   "theorems": [
    "C192_locked_dof"
   ],
   "note": "World body fixed at the origin."
  },
  {
   "property": "C193",
   "status": "proved",
   "theorems": [
    "C193_twelfth_rule"
   ],
   "note": "Contract of the interpolation table."
  },
  {
   "property": "C194",
   "status": "partial",
   "theorems": [
    "C194_tide_labels_refuted"
   ],
   "note": "Refuted: the table ends on the other side of the first height."
  },
  {
   "property": "C195",
   "status": "proved",
   "theorems": [
    "C195_clock"
   ],
   "note": ""
  },
  {
   "property": "C196",
   "status": "partial",
   "theorems": [
    "C196_clock_refuted"
   ],
   "note": "Refuted: times with a zero hour, minute or second are refused."
  },
  {
   "property": "C197",
   "status": "partial",
   "theorems": [
    "C197_tide_refuted"
   ],
   "note": "Refuted: null frame."
  },
  {
   "property": "C198",
   "status": "proved",
   "theorems": [
    "C198_free_surface"
   ],
   "note": ""
  },
  {
   "property": "C199",
   "status": "proved",
   "theorems": [
    "C199_seabed"
   ],
   "note": ""
  },
  {
   "property": "C200",
   "status": "partial",
   "theorems": [
    "C200_depth_ned_refuted"
   ],
   "note": "Refuted: the NED depth is negative."
  },
  {
   "property": "C201",
   "status": "partial",
   "theorems": [
    "C201_show_seabed_refuted"
   ],
   "note": "Refuted: the depth is 30 again."
  },
  {
   "property": "C202",
   "status": "partial",
   "theorems": [
    "C202_hide_seabed_refuted"
   ],
   "note": "Refuted: the next update ends the program."
  },
  {
   "property": "C203",
   "status": "proved",
   "theorems": [
    "C203_properties"
   ],
   "note": ""
  },
  {
   "property": "C204",
   "status": "proved",
   "theorems": [
    "C204_numbers"
   ],
   "note": ""
  },
  {
   "property": "C205",
   "status": "partial",
   "theorems": [
    "C205_viscosity_refuted"
   ],
   "note": "Refuted: they are stored independently and the kinematic viscosity of air is not initialised."
  },
  {
   "property": "C206",
   "status": "proved",
   "theorems": [
    "C206_fluid"
   ],
   "note": ""
  },
  {
   "property": "C207",
   "status": "proved",
   "theorems": [
    "C207_service_clock"
   ],
   "note": "Integer chrono arithmetic of the library (32 bit seconds) modelled."
  },
  {
   "property": "C208",
   "status": "proved",
   "theorems": [
    "C208_starting_time"
   ],
   "note": "Calendar of the date library: proved against Gregorian rules."
  },
  {
   "property": "C209",
   "status": "partial",
   "theorems": [
    "C209_zone_time_refuted"
   ],
   "note": "Refuted: no conversion."
  },
  {
   "property": "C210",
   "status": "proved",
   "theorems": [
    "C210_time_zone"
   ],
   "note": "Zone tables are parameters."
  },
  {
   "property": "C211",
   "status": "partial",
   "theorems": [
    "C211_local_mode_refuted"
   ],
   "note": "Refuted."
  },
  {
   "property": "C212",
   "status": "partial",
   "theorems": [
    "C212_set_day_order_refuted"
   ],
   "note": "Refuted: choosing UTC after the day forgets it."
  },
  {
   "property": "C213",
   "status": "proved",
   "theorems": [
    "C213_broken_down_time"
   ],
   "note": ""
  },
  {
   "property": "C214",
   "status": "proved",
   "theorems": [
    "C214_cartesian"
   ],
   "note": "WGS84 geocentric formulas as contract of GeographicLib."
  },
  {
   "property": "C215",
   "status": "proved",
   "theorems": [
    "C215_origin"
   ],
   "note": ""
  },
  {
   "property": "C216",
   "status": "proved",
   "theorems": [
    "C216_round_trip"
   ],
   "note": "Reverse of GeographicLib is a parameter."
  },
  {
   "property": "C217",
   "status": "proved",
   "theorems": [
    "C217_magnetic"
   ],
   "note": "Magnetic model is a parameter."
  },
  {
   "property": "C218",
   "status": "partial",
   "theorems": [
    "C218_magnetic_frame_refuted"
   ],
   "note": "Refuted: local axes of the point."
  },
  {
   "property": "C219",
   "status": "proved",
   "theorems": [
    "C219_static_restores"
   ],
   "note": "The dynamics and the meshes are parameters."
  },
  {
   "property": "C220",
   "status": "proved",
   "theorems": [
    "C220_static_configuration"
   ],
   "note": "Stated as: two dynamics that agree on such systems give the same analysis."
  },
  {
   "property": "C221",
   "status": "proved",
   "theorems": [
    "C221_static_verdict"
   ],
   "note": ""
  },
  {
   "property": "C222",
   "status": "partial",
   "theorems": [
    "C222_static_activity_refuted"
   ],
   "note": "Refuted: the record of the first analysis is never replaced."
  },
  {
   "property": "C223",
   "status": "partial",
   "theorems": [
    "C223_static_fixed_refuted"
   ],
   "note": "Refuted: they are left asleep, or disabled."
  },
  {
   "property": "C224",
   "status": "partial",
   "theorems": [
    "C224_static_iterations_refuted"
   ],
   "note": "Refuted: two iterations or fewer always fail; a negative number never ends without success."
  },
  {
   "property": "C225",
   "status": "proved",
   "theorems": [
    "C225_links"
   ],
   "note": ""
  },
  {
   "property": "C226",
   "status": "partial",
   "theorems": [
    "C226_broken_motor_refuted"
   ],
   "note": "Refuted: enabling a broken link or repairing a disabled link starts its motor."
  },
  {
   "property": "C227",
   "status": "proved",
   "theorems": [
    "C227_easy_inertia"
   ],
   "note": ""
  },
  {
   "property": "C228",
   "status": "proved",
   "theorems": [
    "C228_easy_shapes"
   ],
   "note": ""
  },
  {
   "property": "C229",
   "status": "proved",
   "theorems": [
    "C229_buoy_volume"
   ],
   "note": "The free surface is taken flat around the buoy, as in the code."
  },
  {
   "property": "C230",
   "status": "partial",
   "theorems": [
    "C230_buoy_force_refuted"
   ],
   "note": "Refuted: it comes from the volume at the previous update, and at the first one from a volume never computed."
  },
  {
   "property": "C231",
   "status": "proved",
   "theorems": [
    "C231_cartesian_grid",
    "C231_whole_domain"
   ],
   "note": ""
  },
  {
   "property": "C232",
   "status": "proved",
   "theorems": [
    "C232_polar_grid"
   ],
   "note": ""
  },
  {
   "property": "C233",
   "status": "partial",
   "theorems": [
    "C233_height",
    "C233_seabed_refuted"
   ],
   "note": "Refuted: only the centre and the first ray are, the others are at zero."
  },
  {
   "property": "C234",
   "status": "partial",
   "theorems": [
    "C234_domain_refuted"
   ],
   "note": "Refuted when the step does not divide the side."
  },
  {
   "property": "C235",
   "status": "partial",
   "theorems": [
    "C235_surface_grid",
    "C235_still",
    "C235_on",
    "C235_hidden_refuted"
   ],
   "note": "Refuted for an update step given to a grid without mesh."
  },
  {
   "property": "C236",
   "status": "proved",
   "theorems": [
    "C236_line"
   ],
   "note": "Exact arithmetic: with rounding the last element may be split."
  },
  {
   "property": "C237",
   "status": "partial",
   "theorems": [
    "C237_one_element_refuted"
   ],
   "note": "Refuted: one element reads the last of an empty vector."
  },
  {
   "property": "C238",
   "status": "proved",
   "theorems": [
    "C238_assets"
   ],
   "note": ""
  },
  {
   "property": "C239",
   "status": "partial",
   "theorems": [
    "C239_shapes_refuted"
   ],
   "note": "Refuted after RemoveAssets."
  },
  {
   "property": "C240",
   "status": "proved",
   "theorems": [
    "C240_mesh_writer",
    "C240_names"
   ],
   "note": ""
  },
  {
   "property": "C241",
   "status": "partial",
   "theorems": [
    "C241_overwritten_refuted"
   ],
   "note": "Refuted: buoy and buoy1."
  },
  {
   "property": "C242",
   "status": "proved",
   "theorems": [
    "C242_polar_file"
   ],
   "note": ""
  },
  {
   "property": "C243",
   "status": "partial",
   "theorems": [
    "C243_missing_field",
    "C243_report_refuted",
    "C243_cut_refuted"
   ],
   "note": "Refuted: uncaught exception, reading beyond the end, or silent cut."
  },
  {
   "property": "C244",
   "status": "proved",
   "theorems": [
    "C244_constraint",
    "C244_ground"
   ],
   "note": "For jacobians that differ from the forces loaded into the bodies (see C245)."
  },
  {
   "property": "C245",
   "status": "partial",
   "theorems": [
    "C245_equal_forces_refuted",
    "C245_third_body_refuted"
   ],
   "note": "Refuted: a third body does not feel the impulses, and a jacobian equal to the loaded forces counts the coupling twice."
  },
  {
   "property": "C246",
   "status": "proved",
   "theorems": [
    "C246_slack_mesh",
    "C246_slack_axes"
   ],
   "note": ""
  },
  {
   "property": "C247",
   "status": "partial",
   "theorems": [
    "C247_taut_mesh",
    "C247_gap",
    "C247_end_refuted"
   ],
   "note": "Refuted: straight, but the last node is short of the ending node by the whole elongation."
  },
  {
   "property": "C248",
   "status": "proved",
   "theorems": [
    "C248_reading",
    "C248_nodes"
   ],
   "note": ""
  },
  {
   "property": "C249",
   "status": "partial",
   "theorems": [
    "C249_tension_beyond",
    "C249_position_outside",
    "C249_position_beyond_refuted"
   ],
   "note": "True of the tension, refuted for the position, read outside of the mesh."
  },
  {
   "property": "C250",
   "status": "partial",
   "theorems": [
    "C250_elements",
    "C250_target_refuted",
    "C250_empty_refuted"
   ],
   "note": "Refuted: they are at least, not at most, that long, and a target longer than the cable leaves no element."
  },
  {
   "property": "C251",
   "status": "proved",
   "theorems": [
    "C251_hinges",
    "C251_default"
   ],
   "note": ""
  },
  {
   "property": "C252",
   "status": "partial",
   "theorems": [
    "C252_breaking",
    "C252_scale_refuted"
   ],
   "note": "The scale of a cable exactly as long as its span is empty (refuted)."
  },
  {
   "property": "C253",
   "status": "partial",
   "theorems": [
    "C253_radius",
    "C253_node_size_refuted"
   ],
   "note": "Refuted for the nodes."
  },
  {
   "property": "C254",
   "status": "proved",
   "theorems": [
    "C254_residual",
    "C254_relax"
   ],
   "note": ""
  },
  {
   "property": "C255",
   "status": "partial",
   "theorems": [
    "C255_lists",
    "C255_second_cable",
    "C255_several_refuted"
   ],
   "note": "True of the first cable; the second one throws (refuted): the name of the line stays taken."
  },
  {
   "property": "C256",
   "status": "partial",
   "theorems": [
    "C256_unrolling_refuted"
   ],
   "note": "Refuted: no effect."
  },
  {
   "property": "C257",
   "status": "proved",
   "theorems": [
    "C257_polynomial",
    "C257_interleaved",
    "C257_derivatives"
   ],
   "note": "After a query, added terms are seen at the abscissas not yet asked for (see C259)."
  },
  {
   "property": "C258",
   "status": "partial",
   "theorems": [
    "C258_second",
    "C258_linear_term_refuted"
   ],
   "note": "Refuted: zero times infinity for a linear term at zero."
  },
  {
   "property": "C259",
   "status": "partial",
   "theorems": [
    "C259_stale_refuted"
   ],
   "note": "Refuted at the abscissa of the last query: the cached value stays."
  },
  {
   "property": "C260",
   "status": "proved",
   "theorems": [
    "C260_mkdir",
    "C260_again"
   ],
   "note": "When no ancestor is a file."
  },
  {
   "property": "C261",
   "status": "partial",
   "theorems": [
    "C261_file_refuted",
    "C261_below_file"
   ],
   "note": "Refuted for a file of that name; below a file the program exits."
  },
  {
   "property": "C262",
   "status": "proved",
   "theorems": [
    "C262_double_array",
    "C262_int_array",
    "C262_list",
    "C262_not_a_dataset",
    "C262_three_dimensions"
   ],
   "note": "Doubles in a double dataset, integers in an integer dataset."
  },
  {
   "property": "C263",
   "status": "partial",
   "theorems": [
    "C263_list",
    "C263_accumulates",
    "C263_columns_refuted"
   ],
   "note": "True of a list; refuted with two columns: each vector also contains the former columns."
  },
  {
   "property": "C264",
   "status": "partial",
   "theorems": [
    "C264_ints_refuted",
    "C264_zeros",
    "C264_sizes"
   ],
   "note": "Refuted: on integers the result is not defined, on doubles each number becomes that many zeros."
  },
  {
   "property": "C265",
   "status": "proved",
   "theorems": [
    "C265_exists"
   ],
   "note": "It is also true of datasets."
  },
  {
   "property": "C266",
   "status": "partial",
   "theorems": [
    "C266_missing_parent",
    "C266_group_refuted"
   ],
   "note": "Refuted: the error code of HDF5 is taken for true."
  },
  {
   "property": "C267",
   "status": "proved",
   "theorems": [
    "C267_closed"
   ],
   "note": "Files found."
  },
  {
   "property": "C268",
   "status": "partial",
   "theorems": [
    "C268_replaced_refuted",
    "C268_no_file"
   ],
   "note": "Refuted: the file replaced stays open; without file, or after a file that is not found, the destructor follows a null pointer."
  },
  {
   "property": "C269",
   "status": "proved",
   "theorems": [
    "C269_folders"
   ],
   "note": "JSON text is abstracted as a tree."
  },
  {
   "property": "C270",
   "status": "partial",
   "theorems": [
    "C270_no_file",
    "C270_default_refuted"
   ],
   "note": "Refuted: the constructor goes on to parse a file that is not open, and throws."
  },
  {
   "property": "C271",
   "status": "proved",
   "theorems": [
    "C271_destination"
   ],
   "note": "Contracts of spdlog."
  },
  {
   "property": "C272",
   "status": "partial",
   "theorems": [
    "C272_second_fails",
    "C272_independent_refuted"
   ],
   "note": "Refuted: the logger has the same name for all, the second construction throws."
  },
  {
   "property": "C273",
   "status": "partial",
   "theorems": [
    "C273_level_refuted",
    "C273_level"
   ],
   "note": "Refuted: the creation of a system sets it back; true without creation nor destruction in between."
  },
  {
   "property": "C274",
   "status": "partial",
   "theorems": [
    "C274_text",
    "C274_arguments",
    "C274_names_refuted"
   ],
   "note": "True without braces in type and name; refuted with: the name is part of the format, and the message is lost."
  }
 ]
}
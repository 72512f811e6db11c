# What Print Assumptions lists for each theorem

Made by `tools/assumptions.py`. All are axioms of Coq's standard library:
F = `ClassicalDedekindReals.sig_forall_dec`, N = `ClassicalDedekindReals.sig_not_dec`, E = `FunctionalExtensionality.functional_extensionality_dep`, C = `Classical_Prop.classic`; `-` = closed under the global context.

## AmProps.v

* `C151_mass`: F E
* `C151_inverse`: F E
* `C152_equations`: F E
* `C152_momenta`: F E
* `C152_pairwise`: F E
* `C152_work`: F E
* `C153_residual`: F E
* `C153_diagonal`: F E
* `C153_matrix`: F E
* `C154_linear_refuted`: F E
* `C154_product_partial`: F E
* `C154_product_refuted`: F E
* `C154_assembly_refuted`: F E
* `C155_inertia_refuted`: F E
* `C156_fixed_refuted`: F E
* `C157_heading_refuted`: F N E

## AstProps.v

* `C231_cartesian_grid`: F E
* `C231_whole_domain`: F E
* `C232_polar_grid`: F N C E
* `C233_height`: F N E
* `C233_seabed_refuted`: F N E
* `C234_domain_refuted`: F E
* `C235_surface_grid`: F N E
* `C235_still`: F N E
* `C235_on`: F
* `C235_hidden_refuted`: F N E
* `C236_line`: F E
* `C237_one_element_refuted`: F E
* `C238_assets`: -
* `C239_shapes_refuted`: -
* `C240_mesh_writer`: -
* `C240_names`: -
* `C241_overwritten_refuted`: -
* `C242_polar_file`: F
* `C243_missing_field`: -
* `C243_report_refuted`: F
* `C243_cut_refuted`: F
* `C244_constraint`: F E
* `C244_ground`: F E
* `C245_equal_forces_refuted`: F E
* `C245_third_body_refuted`: F E

## BodyProps.v

* `C20_every_operation_sequence`: F N E
* `C20_every_operation`: F N E
* `C20_setters_read_back`: F E
* `C17_attached`: F N E
* `C17_node_operations`: F N E
* `C101_node_axes_actual`: F N E
* `C101_translate_in_body_refuted`: F N E
* `C101_rotate_in_body_refuted`: F N E
* `C101_rotate_in_world_refuted`: F N E
* `C21_rigid_field`: F E
* `C21_set_then_read`: F E
* `C22_wrench`: F E
* `C22_every_state_is_a_wrench`: F E
* `C22_limits`: F N E
* `C22_inactive`: F N E

## CabProps.v

* `C45_weight`: F N C E
* `C45_tangent`: F N C E
* `C45_balance`: F N C E
* `C45_moment`: F N C E
* `C118_neutral_refuted`: F N C E
* `C118_stale_refuted`: F N C E
* `C46_derivative`: F N C E
* `C46_definite`: F N C E
* `C47_read_back`: F N E
* `C47_consistent`: F N E
* `C47_constructor`: F N E
* `C119_make_refuted`: F N E
* `C66_solve`: F N C E
* `C66_damping_ends`: F E
* `C66_starts`: F N C E
* `C66_unique`: F N C E
* `C66_accuracy`: F N C E
* `C132_short_refuted`: F N C E
* `C132_silent_refuted`: F N C E
* `C132_vertical_refuted`: F N C E
* `C67_paid_out`: F N C E
* `C67_constant_speed`: F N C E
* `C133_late_refuted`: F N C E
* `C67_strained`: F N C E
* `C68_one_force_each`: F N C E
* `C68_applied`: F N E
* `C68_third_law`: F N C E

## ClipProps.v

* `C34_plane`: F N E
* `C34_wave`: F N E
* `C109_jump_refuted`: F E
* `C35_vertex`: F E
* `C35_face`: -
* `C35_types_distinct`: -
* `C35_horizontal_plane`: F N E
* `C53_plane`: F N E
* `C53_wave`: F N E
* `C53_plane_exact`: F N C E
* `C53_archimedes`: F N C E
* `C53_placed`: F N E
* `C54_force_with_tide`: F N C E
* `C122_tide_refuted`: F N C E
* `C55_import_partial`: F N E
* `C55_import_refuted`: F N E

## DispProps.v

* `C40_ends`: F N C E
* `C40_deterministic`: F N E
* `C40_exact_exists`: F N C E
* `C40_residual`: F N C E
* `C40_accuracy`: F N C E
* `C40_deep`: F N E
* `C40_vector`: F N E
* `C113_relative_accuracy_refuted`: F N C E

## DynProps.v

* `C246_slack_mesh`: F N E
* `C246_slack_axes`: F N E
* `C247_taut_mesh`: F N E
* `C247_gap`: F N E
* `C247_end_refuted`: F N E
* `C248_reading`: F N E
* `C248_nodes`: F N E
* `C249_tension_beyond`: F N E
* `C249_position_outside`: F N E
* `C249_position_beyond_refuted`: F N E
* `C250_elements`: F E
* `C250_target_refuted`: F E
* `C250_empty_refuted`: F E
* `C251_hinges`: F N E
* `C251_default`: F N E
* `C252_breaking`: F N E
* `C252_scale_refuted`: F N E
* `C253_radius`: -
* `C253_node_size_refuted`: F E
* `C254_residual`: F N E
* `C254_relax`: F N E
* `C256_unrolling_refuted`: F E

## DynRegProps.v

* `C255_lists`: -
* `C255_second_cable`: -
* `C255_several_refuted`: -

## EnvProps.v

* `C193_twelfth_rule`: F E
* `C194_tide_labels_refuted`: F E
* `C195_clock`: F E
* `C196_clock_refuted`: -
* `C197_tide_refuted`: F E
* `C198_free_surface`: F E
* `C199_seabed`: F E
* `C200_depth_ned_refuted`: F E
* `C201_show_seabed_refuted`: F E
* `C202_hide_seabed_refuted`: F E
* `C203_properties`: F E
* `C204_numbers`: F N E
* `C205_viscosity_refuted`: F E
* `C206_fluid`: F E

## EqfProps.v

* `C48_created`: F N C E
* `C48_motion`: F N E
* `C48_motion_any_times`: F N E
* `C48_velocity_from_body`: F N E
* `C120_slow_refuted`: F N E
* `C120_restart_refuted`: F N E
* `C48_velocity_read`: F E
* `C120_velocity_ned_refuted`: F E
* `C48_velocity_in_frame`: F N E
* `C120_velocity_in_frame_ned_refuted`: F N E
* `C48_perturbation`: F N E
* `C58_value`: F N C E
* `C58_equilibrium`: F N C E
* `C58_first_order_exact`: F N C E
* `C124_mesh_maker_refuted`: F N C E
* `C124_vertical_refuted`: F N C E
* `C59_step`: F N C E
* `C59_converges`: F N C E
* `C125_heading_wrap_refuted`: F N C E
* `C125_restart_refuted`: F N C E
* `C60_mean_motion`: F N C E
* `C126_uninitialised_refuted`: F N C E

## ExcProps.v

* `C81_load`: F N E
* `C81_nodes`: F N E
* `C81_regular`: F N E
* `C81_irregular`: F N E
* `C82_superposition`: F N E
* `C82_bound`: F N E
* `C82_harmonic`: F N C E
* `C83_excitation_is_sum`: F N E
* `C84_initialisation`: F N E
* `C92_still_water_refuted`: F N E
* `C85_same_components`: F N E
* `C149_new_waves_refuted`: F N E
* `C86_heading_refuted`: F N E
* `C87_prefix`: F N E
* `C150_single_refuted`: F N E
* `C88_drift`: F N C E
* `C88_outside`: F N C E
* `C89_quadratic`: F N C E
* `C89_steady`: F N C E
* `C89_steady_irregular`: F N C E
* `C93_ramp_refuted`: F N C E
* `C90_direction_refuted`: F N C E
* `C90_axes_refuted`: F N C E
* `C91_wrench`: F N C E
* `C91_affine_exact`: F N C E
* `C91_closed`: F N C E

## FloProps.v

* `C69_vector`: F E
* `C69_angle`: F N E
* `C69_compass`: F N E
* `C69_speed`: F N E
* `C69_ramp`: F E
* `C69_no_ramp`: F E
* `C69_relative`: F E
* `C134_relative_ned_partial`: F E
* `C134_relative_ned_refuted`: F E
* `C69_fluid`: F E
* `C70_coefficients`: F
* `C70_coefficient`: F
* `C70_linear`: F E
* `C70_dissipates`: F E
* `C70_drift`: F E
* `C135_check_partial`: F E
* `C135_check_refuted`: F E
* `C70_quadratic`: F E
* `C70_resistance`: F N C E
* `C70_resistance_at_rest`: F N C E
* `C135_resistance_refuted`: F N C E
* `C135_resistance_current_refuted`: F N C E
* `C71_setters`: -
* `C71_force`: F E
* `C71_magnitude`: F E
* `C71_opposes`: F E
* `C136_cubic_refuted`: F N E
* `C136_power_refuted`: F N E
* `C72_wind`: F N C E
* `C72_current`: F N C E
* `C72_calm`: F N C E
* `C72_pushes`: F N E
* `C72_arm`: F N C E
* `C72_wind_initialize`: F E
* `C72_current_initialize`: F E
* `C72_current_accepts`: F E
* `C137_xcenter_refuted`: F N C E
* `C137_capsized_refuted`: F N C E
* `C73_rows`: F N C E
* `C73_interpolates`: F N C E
* `C73_symmetric`: F N C E
* `C138_gap_refuted`: F N C E
* `C138_five_degrees_refuted`: F N C E
* `C74_force`: F N C E
* `C74_calm`: F N C E
* `C74_horizontal`: F N C E
* `C74_symmetric`: F N C E

## FunProps.v

* `C01_history_independence`: F N C E
* `C01_same_expression_same_answer`: F N C E
* `C01_textbook_value`: F N C E
* `C01_textbook_value_any_history`: F N C E
* `C94_history_independence_refuted`: F N C E
* `C02_derivatives`: F N C E
* `C04_asinh_derivative_partial`: F N C E
* `C03_offset_direct`: F N C E
* `C95_copy_forgets_offset_refuted`: F N C E
* `C95_offset_in_expression_refuted`: F N C E
* `C04_asinh_refuted`: F N C E
* `C05_compound_assignment_refuted`: F N C E
* `C05_compound_assignment_partial`: F N C E
* `C06_clamp`: F N C E
* `C96_clamp_refuted`: F N C E
* `C07_saturate_both`: F N C E
* `C97_one_sided_refuted`: F N C E
* `C08_linear_ramp`: F N C E
* `C08_cosine_ramp`: F N C E
* `C09_linear_setters_refuted`: F N C E
* `C09_reported_coefficients_partial`: F E
* `C10_tanh_ramp_refuted`: F N C E
* `C10_tanh_ramp_partial`: F N C E
* `C10_plateaus_partial`: F N C E
* `C10_end_point_refuted`: F N C E
* `C145_reconfiguration_refuted`: F N C E
* `C49_reconfiguration`: F N C E

## GeoProps.v

* `C11_swap_is_isometric_involution`: F N E
* `C11_frame_position`: F
* `C11_same_convention_reads_back`: F E
* `C11_quaternion_elements`: F N E
* `C11_torsor_point`: F
* `C11_rotation_axes`: F N E
* `C98_frame_axes_nwu_partial`: F N E
* `C98_frame_axes_ned_refuted`: F N E
* `C12_transport_rule`: F E
* `C12_same_point`: F E
* `C12_transports_compose`: F E
* `C12_power_invariant`: F E
* `C12_velocity_field`: F E
* `C13_rotation_expressions`: F N E
* `C13_preserves_dot_and_cross`: F E
* `C13_product_and_inverse`: F E
* `C13_axes`: F E
* `C13_matrix`: F E
* `C13_matrix_round_trip`: F N E
* `C13_normalising_setter`: F N E
* `C14_cardan_meaning`: F N E
* `C14_round_trip`: F N C E
* `C14_reported_angles_describe_rotation`: F N C E
* `C99_undefined_roll`: F N C E
* `C99_gimbal_refuted`: F N C E
* `C15_group`: F E
* `C15_points`: F E
* `C15_distances`: F N E
* `C15_relative_frames`: F E
* `C15_closure`: F E
* `C15_conventions`: F E
* `C16_every_operation_sequence`: F N E
* `C100_mul_assign_refuted`: F E
* `C100_mul_assign_actual`: F
* `C100_rotate_radians_refuted`: F N E
* `C100_rotate_takes_degrees`: F N E
* `C100_rotate_parent_takes_degrees`: F N E
* `C100_project_partial`: F N C E
* `C100_project_refuted`: F N E

## GgrProps.v

* `C214_cartesian`: F N C E
* `C215_origin`: F N E
* `C216_round_trip`: F N E
* `C217_magnetic`: F N C E
* `C218_magnetic_frame_refuted`: F N E

## HydProps.v

* `C36_matrix_object`: F
* `C36_hydrostatic_properties`: F N C E
* `C36_default_reduction`: F
* `C36_extents`: F N C E
* `C36_stiffness_is_derivative`: F N C E
* `C110_recompute_refuted`: F N C E
* `C110_moonpool_refuted`: F N C E
* `C56_matrix`: F N C E
* `C146_ned_refuted`: F N C E
* `C146_offset_refuted`: F N C E
* `C57_converged`: F N E
* `C57_displacement`: F N E
* `C57_terminates`: F N E
* `C57_moves`: F N E
* `C123_offset_refuted`: F N E
* `C123_uninitialised_refuted`: F N E
* `C123_submerged_refuted`: F N E
* `C123_exhausted_refuted`: F N E
* `C123_heading_refuted`: F N E
* `C57_at_equilibrium`: F N C E
* `C57_heave_step`: F N C E

## InertiaProps.v

* `C18_constructed_at_any_frame`: F E
* `C18_reset_at_any_frame`: F E
* `C18_report_at_any_frame`: F E
* `C18_every_distribution_in_every_frame`: F E
* `C18_add_is_union`: F E
* `C18_assembly_is_union`: F E
* `C18_body_keeps_its_tensor`: F E
* `C18_mass_matrix_energy`: F E
* `C19_frame_data`: F
* `C19_frame_reset`: F
* `C19_readers`: F E
* `C19_conversion_is_physical`: F E
* `C102_cog_data_partial`: F E
* `C102_cog_nwu_partial`: F E
* `C102_cog_data_refuted`: F E
* `C102_set_at_cog_refuted`: F E

## IoProps.v

* `C262_double_array`: F
* `C262_int_array`: -
* `C262_list`: F
* `C262_not_a_dataset`: F
* `C262_three_dimensions`: F
* `C263_list`: F
* `C263_accumulates`: F
* `C263_columns_refuted`: F
* `C264_ints_refuted`: F E
* `C264_zeros`: F E
* `C264_sizes`: F E
* `C265_exists`: -
* `C266_missing_parent`: -
* `C266_group_refuted`: -
* `C267_closed`: -
* `C268_replaced_refuted`: -
* `C268_no_file`: -
* `C269_folders`: -
* `C270_no_file`: -
* `C270_default_refuted`: -

## LnkProps.v

* `C170_relative_frames`: F E
* `C171_relative_velocities`: F E
* `C172_velocity_of_node1_refuted`: F E
* `C173_velocity_convention_refuted`: F E
* `C174_reactions`: F E
* `C175_angle_tracking`: F N C E
* `C176_turns`: F N E
* `C177_rest_angle`: F N C E
* `C178_negative_rest_angle_refuted`: F N C E
* `C179_revolute_spring`: F N C E
* `C180_prismatic_spring`: F E
* `C181_clamp_revolute_refuted`: F N C E
* `C182_clamp_prismatic_refuted`: F N E
* `C183_motor_convention_refuted`: F E
* `C184_motor_wrenches`: F N E
* `C185_masks`: -
* `C186_mask_type_refuted`: -
* `C187_flags`: -
* `C188_motor_state_refuted`: -
* `C189_planes`: F N E
* `C190_signed_distance_refuted`: F E
* `C191_point_on_line`: F N E
* `C192_locked_dof`: F E

## MeshProps.v

* `C30_face_integrals`: F N C E
* `C107_mixed_monomials_refuted`: F N C E
* `C31_polygon_integrals`: F N C E
* `C31_polygon_area`: F N C E
* `C31_polygon_accepted`: F N E
* `C31_frame_convention`: F N E
* `C108_uninitialised_refuted`: F E
* `C108_cubic_refuted`: F N C E
* `C32_signed_tetrahedra`: F N C E
* `C32_watertight_test`: -
* `C32_closed_mesh`: F N C E
* `C32_mesh_with_holes`: F N C E
* `C32_boundary_found`: F N E
* `C32_rigid_motion`: F N C E
* `C32_rigid_motion_holes`: F N C E
* `C32_box`: F N C E
* `C33_archimedes`: F N C E
* `C33_centre_of_buoyancy`: F N C E
* `C33_from_the_mesh`: F N C E
* `C50_torque_refuted`: F N C E
* `C51_solid_inertia`: F N C E
* `C121_shell_mass_refuted`: F N C E
* `C52_history_independent`: F N E
* `C52_bounding_box`: F E

## MorProps.v

* `C158_placed`: F N E
* `C158_from_nodes`: F N E
* `C159_law`: F N E
* `C159_upright`: F N E
* `C160_sum`: F N E
* `C160_total`: F N E
* `C161_passive`: F N E
* `C162_division`: F N E
* `C163_turned_refuted`: F N E
* `C164_current_refuted`: F N E
* `C165_reference_refuted`: F N E
* `C166_inertia_refuted`: F N E
* `C167_properties`: F N E
* `C167_option`: F N E
* `C168_nested_refuted`: F N E
* `C169_round_refuted`: F N E

## PolProps.v

* `C257_polynomial`: F N C E
* `C257_interleaved`: F N C E
* `C257_derivatives`: F N C E
* `C258_second`: F N C E
* `C258_linear_term_refuted`: F N C E
* `C259_stale_refuted`: F N C E
* `C260_mkdir`: -
* `C260_again`: -
* `C261_file_refuted`: -
* `C261_below_file`: -

## RadProps.v

* `C75_convolution`: F N E
* `C75_superposition`: F N E
* `C75_at_rest`: F N E
* `C75_same_time`: F N E
* `C75_at_system_time`: F N E
* `C75_applied`: F E
* `C76_one_body`: F N E
* `C139_fleet_partial`: F N E
* `C139_other_bodies_refuted`: F N E
* `C139_astern_refuted`: F N E
* `C77_once`: F E
* `C77_refused`: F
* `C140_again_refuted`: F E
* `C78_window`: F N E
* `C78_ready`: F N E
* `C141_window_refuted`: F N E
* `C79_mapper`: -
* `C79_count`: -
* `C142_remap_refuted`: -
* `C80_kernels`: F E
* `C80_speed_kernels`: F E
* `C80_refused`: F E
* `C80_added_mass`: -
* `C143_again_refuted`: F E

## RegProps.v

* `C24_unique_paths`: -
* `C24_path_is_parent_then_label`: -
* `C24_used_path_throws`: -
* `C24_path_determines_names`: -
* `C104_names_with_slash_refuted`: -
* `C23_forces_added_not_removed`: -
* `C23_forces_logged`: -
* `C23_remove_absent`: -
* `C103_readd_removed_refuted`: -
* `C23_nodes_added_not_removed`: -
* `C148_remove_all_refuted`: -
* `C25_empty`: -
* `C25_remove_each`: -
* `C147_failed_add_refuted`: -
* `C26_failed_add`: -
* `C26_unknown_class`: -
* `C27_registries`: -
* `C27_items`: -
* `C27_log`: -
* `C27_remove_absent`: -
* `C105_readd_refuted`: -
* `C105_clear_refuted`: -
* `C105_cable_hinges_refuted`: -

## SeaProps.v

* `C41_pierson_moskowitz`: F N C E
* `C41_jonswap`: F N C E
* `C41_nonneg`: F N C E
* `C114_nonneg_refuted`: F N C E
* `C41_scale`: F N C E
* `C41_jonswap_peak`: F N C E
* `C41_pm_peak`: F N C E
* `C42_amplitudes`: F N C E
* `C115_three_refuted`: -
* `C115_three_directions_refuted`: F N C E
* `C115_widths_refuted`: F E
* `C115_two_refuted`: F E
* `C42_energy`: F N C E
* `C42_directions`: F N C E
* `C115_no_model_refuted`: F N C E
* `C42_uniform`: F N C E
* `C44_ends`: F E
* `C44_found`: F E
* `C44_jonswap`: F N C E
* `C44_pierson_moskowitz`: F N C E
* `C117_binary64_refuted`: -
* `C63_normalised`: F N C E
* `C63_bandwidth`: F N C E
* `C129_two_directions_refuted`: F N C E
* `C129_half_turn_refuted`: F N C E
* `C64_ready`: F N C E
* `C64_directions`: F N C E
* `C130_none_refuted`: -
* `C130_order_refuted`: F N C E
* `C130_seed_refuted`: F N C E
* `C130_direction_refuted`: F N C E
* `C130_late_frequencies_refuted`: F N C E
* `C65_round_trip`: F N C E
* `C131_optim_refuted`: F N C E
* `C61_irregular`: F N C E

## SigProps.v

* `C28_resampled_history`: F E
* `C28_same_time_ignored`: F E
* `C28_value_at_age`: F E
* `C28_mean`: F E
* `C106_large_steps_refuted`: F E
* `C29_trapezoidal_rule`: F E
* `C29_exact_on_polylines`: F N C E
* `C29_linear`: F E
* `C29_monotone`: F E
* `C29_additive`: F E
* `C29_size_mismatch`: F E

## StcProps.v

* `C219_static_restores`: F N E
* `C220_static_configuration`: F N E
* `C221_static_verdict`: F N E
* `C222_static_activity_refuted`: F N E
* `C223_static_fixed_refuted`: F N E
* `C224_static_iterations_refuted`: F N E
* `C225_links`: -
* `C226_broken_motor_refuted`: -
* `C227_easy_inertia`: F N C E
* `C228_easy_shapes`: F E
* `C229_buoy_volume`: F N C E
* `C230_buoy_force_refuted`: F N C E

## TimProps.v

* `C207_service_clock`: F E
* `C208_starting_time`: -
* `C209_zone_time_refuted`: -
* `C210_time_zone`: F E
* `C211_local_mode_refuted`: F E
* `C212_set_day_order_refuted`: -
* `C213_broken_down_time`: -

## WavProps.v

* `C37_regular`: F N C E
* `C37_regular_pressure`: F N C E
* `C37_deep_api`: F N E
* `C37_bed_api`: F N C E
* `C111_bed_refuted`: F N C E
* `C111_ramp_refuted`: F N C E
* `C37_irregular`: F N C E
* `C38_elevation`: F N E
* `C38_elevation_irregular`: F N E
* `C112_velocity_partial`: F N E
* `C112_velocity_irregular_partial`: F N E
* `C112_velocity_refuted`: F N E
* `C112_velocity_actual`: F N E
* `C112_pressure_refuted`: F N E
* `C38_cutoff_nwu`: F N E
* `C112_cutoff_refuted`: F N E
* `C38_null`: F E
* `C39_derivative`: F N C E
* `C144_above_refuted`: F N C E
* `C144_three_refuted`: F N C E
* `C39_wheeler`: F N E
* `C39_selection_regular`: F N E
* `C144_selection_regular_refuted`: F N E
* `C39_selection_irregular`: F N E
* `C144_selection_irregular_refuted`: F N E
* `C144_profiles_differ`: F N C E
* `C43_degrees`: F N E
* `C116_radians_partial`: F N C E
* `C116_radians_refuted`: F N C E
* `C116_vector_partial`: F N C E
* `C116_vector_refuted`: F N C E
* `C43_list`: F N E
* `C61_optim`: F N E
* `C127_update_refuted`: F N E
* `C62_first`: F N E
* `C62_fresh`: F N E
* `C128_history_refuted`: F N C E

{"claims": [
  {"property": "C01", "status": "proved", "theorems": ["C01_limits_hold_after_any_history"], "note": "All joint classes, all call histories; limits as read back."},
  {"property": "C02", "status": "proved", "theorems": ["C02_xform_is_documented"], "note": "Histories start at rkJointAssign; documented frames are in Joint_Spec.doc_frame."},
  {"property": "C03", "status": "proved", "theorems": ["C03_xform_keeps_frames_rigid"], "note": "Under the stated laws of sin/cos and angle-axis conversion (ExtLaws)."},
  {"property": "C04", "status": "proved", "theorems": ["C04_inc_vel_is_derivative", "C04_inc_vel_adds"], "note": "over the reals, with real sine, cosine and Rodrigues formula"},
  {"property": "C05", "status": "partial", "theorems": ["C05_continuous_update_acc", "C05_continuous_update_vel_partial", "C05_continuous_update_vel_refuted"], "note": "Acceleration part proved for all requests; velocity part proved for requests the limit function leaves alone; false otherwise (refuted with a clamped request)."},
  {"property": "C06", "status": "partial", "theorems": ["C06_pivot_roundtrip_revolute_partial", "C06_pivot_prismatic_refuted", "C06_pivot_cylindrical_refuted", "C06_pivot_universal_refuted"], "note": "Proved for the revolute joint over all histories; refuted for prismatic, cylindrical and universal joints, whose set and get copy in the wrong direction."},
  {"property": "C07", "status": "proved", "theorems": ["C07_copy_state"], "note": "The source's displacement was set under its present limits (settled); otherwise clamping in the destination applies."},
  {"property": "C08", "status": "partial", "theorems": ["C08_clone_default_partial", "C08_clone_state_partial", "C08_clone_refuted"], "note": "Clone of a joint with default limits and friction parameters is identical; in general limits and friction parameters are lost (refuted)."},
  {"property": "C09", "status": "proved", "theorems": ["C09_friction_is_passive"], "note": "Rate of elastic energy is k q dq."},
  {"property": "C10", "status": "proved", "theorems": ["C10_torque_dual_to_velocity"], "note": ""},
  {"property": "C11", "status": "proved", "theorems": ["C11_axes_agree_with_velocity"], "note": ""},
  {"property": "C12", "status": "proved", "theorems": ["C12_type_lookup"], "note": ""},
  {"property": "C13", "status": "partial", "theorems": ["C13_holds_refuted", "C13_never_back_refuted", "C13_rigid_refuted", "C13_interference_refuted", "C13_free_afterwards_refuted"], "note": "Refuted in all parts: as long as the inertias behind them can be inverted, breakable joints transmit no wrench at all and never trip (proved for all trees); a joint under a wrench below its thresholds is not rigid; an event makes the joint rigid instead of free; an event at one joint changes the mode of every other breakable joint, for good (shared method table)."},
  {"property": "C14", "status": "proved", "theorems": ["C14_motor_saturation"], "note": ""},
  {"property": "C15", "status": "proved", "theorems": ["C15_dc_motor_balance_and_passivity"], "note": ""},
  {"property": "C16", "status": "proved", "theorems": ["C16_pop_returns_last_pushed", "C16_pop_is_null_iff_empty", "C16_net_wrench_is_sum", "C16_push_pop_keeps_net"], "note": "LIFO for every balanced history; net wrench over any permutation"},
  {"property": "C17", "status": "proved", "theorems": ["C17_net_wrench_power"], "note": ""},
  {"property": "C18", "status": "proved", "theorems": ["C18_combine_conserves", "C18_org_inertia_is_parallel_axis", "C18_combine_keeps_physical"], "note": ""},
  {"property": "C19", "status": "proved", "theorems": ["C19_combine_commutes", "C19_combine_associates", "C19_any_order_and_grouping"], "note": "pairwise laws under non-zero partial sums; any order and grouping for positive masses"},
  {"property": "C20", "status": "proved", "theorems": ["C20_xform_inverse", "C20_xform_cascade", "C20_xform_commutes_with_combine", "C20_body_combine_frame_independent", "C20_body_combine_drc_world"], "note": ""},
  {"property": "C21", "status": "proved", "theorems": ["C21_com_rates", "C21_net_wrench_is_momentum_rate", "C21_power_is_energy_rate"], "note": "over the reals; motion specified by derivatives of the frame"},
  {"property": "C22", "status": "proved", "theorems": ["C22_am_shift", "C22_ke_nonneg", "C22_ke_zero_means_rest"], "note": ""},
  {"property": "C23", "status": "proved", "theorems": ["C23_add_child_forest", "C23_complete_tree"], "note": "rkLinkAddChild on an index-based link array; legal attachment sequences"},
  {"property": "C24", "status": "proved", "theorems": ["C24_frame_pass", "C24_vel_pass", "C24_acc_pass", "C24_rate_pass", "C24_wrench_pass", "C24_fk_id_total"], "note": "frame, velocity, acceleration, rate and wrench passes; the ABI passes are claimed separately when modelled"},
  {"property": "C25", "status": "partial", "theorems": ["C25_add_sibl_parent_refuted", "C25_frame_update_crashes_refuted"], "note": "false of the code: refuted by a witness; rkLinkAddSibl leaves the parent NULL"},
  {"property": "C26", "status": "partial", "theorems": ["C26_clone_structure_partial", "C26_clone_tree", "C26_clone_only_closed"], "note": "structure, references, frames, mass properties and rates are proved; displacement only for settled joints with normalised angles because joint limits are not cloned"},
  {"property": "C27", "status": "proved", "theorems": ["C27_offset_iff_movable", "C27_ranges_disjoint_in_order", "C27_ranges_cover", "C27_only_offsets"], "note": ""},
  {"property": "C28", "status": "proved", "theorems": ["C28_dis_roundtrip", "C28_rate_roundtrip", "C28_vel_roundtrip", "C28_index_dis", "C28_index_vel"], "note": "saturation is that of rkJointLimDis (C01)"},
  {"property": "C29", "status": "proved", "theorems": ["C29_default_index_movable", "C29_default_index_increasing", "C29_default_index_size", "C29_default_index_same"], "note": ""},
  {"property": "C30", "status": "proved", "theorems": ["C30_frame_is_product", "C30_previous_state_irrelevant"], "note": ""},
  {"property": "C31", "status": "proved", "theorems": ["C31_frames_rigid"], "note": ""},
  {"property": "C32", "status": "proved", "theorems": ["C32_motion_exists", "C32_angular", "C32_linear"], "note": ""},
  {"property": "C33", "status": "proved", "theorems": ["C33_relative_angular", "C33_relative_linear"], "note": ""},
  {"property": "C34", "status": "proved", "theorems": ["C34_com"], "note": ""},
  {"property": "C35", "status": "proved", "theorems": ["C35_link_am", "C35_am", "C35_am_com"], "note": ""},
  {"property": "C36", "status": "proved", "theorems": ["C36_velocity_is_derivative", "C36_com_velocity"], "note": ""},
  {"property": "C37", "status": "partial", "theorems": ["C37_acceleration_is_derivative_partial", "C37_com_acceleration_partial", "C37_float_acceleration_refuted"], "note": "proved when no floating joint translates and rotates in different directions; false for floating joints in general, refuted by a witness; linear accelerations include the gravity offset of the root"},
  {"property": "C38", "status": "proved", "theorems": ["C38_virtual_power"], "note": ""},
  {"property": "C39", "status": "proved", "theorems": ["C39_link_wrench", "C39_root_wrench", "C39_ext_wrench"], "note": "rkChainCalcExtWrench: links whose net external wrench is within the tolerance of zero but not zero are excluded by hypothesis, because the code skips them."},
  {"property": "C40", "status": "partial", "theorems": ["C40_alloc_ready", "C40_update_total", "C40_update_solves_partial", "C40_forward_dynamics_partial", "C40_inverse_dynamics_partial", "C40_prism_refuted", "C40_cylin_refuted", "C40_hooke_refuted", "C40_spher_refuted", "C40_float_inverse_refuted"], "note": "Proved for trees of fixed, revolute, floating and unbroken breakable floating joints and a prismatic joint at the root, with regular joint inertias: link accelerations follow the joint accelerations, Newton-Euler equations hold at every link with external and contact wrenches, and the projected joint wrench equals the motor and friction torque; inverse dynamics recovers these torques. Refuted for prismatic joints below the root, cylindrical, universal and spherical joints."},
  {"property": "C41", "status": "proved", "theorems": ["C41_inertias_psd", "C41_update_psd"], "note": "Holds for all joint types except cylindrical, with non-negative rotor inertia; both after the backward pass and after the whole update."},
  {"property": "C42", "status": "partial", "theorems": ["C42_trials_partial", "C42_no_joints", "C42_lists_kept", "C42_joint_acc_refuted", "C42_lists_refuted"], "note": "Histories of trials (one or two forces, or arbitrary lists) leave link accelerations, biases, inertias and every later trial result as if they had not happened. Refuted: joint accelerations are not restored; biases are not restored when contact forces are left in the lists (the lists themselves are, for all chains and lists: C42_lists_kept). Chains with no joint coordinates are only set at rest by all updates (C42_no_joints)."},
  {"property": "C43", "status": "proved", "theorems": ["C43_zmp", "C43_unique", "C43_inverse_dynamics"], "note": "For all root frames that are rotations, all wrenches and heights; also uniqueness, and after inverse dynamics the point is the zero moment point of all that moves the links."},
  {"property": "C44", "status": "partial", "theorems": ["C44_vertical_moment", "C44_yaw_partial", "C44_yaw_refuted"], "note": "Refuted: the function divides by the vertical torque instead of the vertical force. Proved: the right formula, and that the function is right when vertical torque and force are equal."},
  {"property": "C45", "status": "proved", "theorems": ["C45_symmetric", "C45_first", "C45_first_of_type", "C45_missing"], "note": "For all arrays and keys."},
  {"property": "C46", "status": "partial", "theorems": ["C46_ids_unique", "C46_new_id", "C46_find", "C46_unreg", "C46_cell_before_joint_refuted"], "note": "Proved for every history of solver calls that completes. Registering a cell before any joint dereferences the null joint index (refuted witness), so the claim does not hold for histories that begin with a cell."},
  {"property": "C47", "status": "partial", "theorems": ["C47_index_partial", "C47_only_registered_move_partial", "C47_index_refuted", "C47_last_unregistered_moves_refuted"], "note": "Proved whenever at least one registered movable joint remains: index, columns and weights match the registrations, and a velocity step changes only registered joints. Refuted when the last joint is unregistered: the index keeps the old joints and the velocity step still moves them."},
  {"property": "C48", "status": "proved", "theorems": ["C48_rows", "C48_rows_motion"], "note": "For any call history with at least one registered movable joint; the linear solver is assumed to return vectors of the right size (le_laws)."},
  {"property": "C49", "status": "proved", "theorems": ["C49_minimiser"], "note": "The default (auto-damped) method, positive joint weights and non-negative cell weights; the external linear solver is assumed to return a solution when the matrix is regular (le_laws, satisfied by the Gauss elimination in IK_Gauss.v)."},
  {"property": "C50", "status": "proved", "theorems": ["C50_report", "C50_limits"], "note": ""},
  {"property": "C51", "status": "partial", "theorems": ["C51_bind_zero_error_partial", "C51_momentum_cells_refuted"], "note": "Proved for the five kinds WldPos, WldAtt, L2LPos, L2LAtt and COM, assuming the attitude error of a rotation with itself is zero. Refuted for AM and AMCOM: their error is minus the angular momentum whatever is bound."},
  {"property": "C52", "status": "partial", "theorems": ["C52_position_cells_partial", "C52_solve_partial", "C52_attitude_cells_refuted", "C52_attitude_residue_refuted"], "note": "Proved for solvers of position type cells (world position, link-to-link position, COM); refuted for attitude cells: zeroing clears three of the four doubles of the accumulated Euler parameter, so the next step depends on earlier errors."},
  {"property": "C53", "status": "partial", "theorems": ["C53_registry", "C53_links_partial", "C53_stationary_partial", "C53_unregister", "C53_links_refuted", "C53_stationary_refuted"], "note": "Consistency and unregistration proved for every history; the two cells of a pair belong to different links unless rkCDPairReg is asked to pair a link with itself, and two stationary cells are never paired unless rkCDPairReg pairs them; both exceptions have witnesses"},
  {"property": "C54", "status": "partial", "theorems": ["C54_pair_reg_partial", "C54_after_unreg", "C54_refuted"], "note": "False when some pair of the two links is already registered (witness); proved when none is, in particular after rkCDPairUnreg"},
  {"property": "C55", "status": "partial", "theorems": ["C55_flags_partial", "C55_defined", "C55_vert_partial", "C55_count_partial", "C55_vert_count", "C55_count_refuted", "C55_vert_refuted"], "note": "Flags proved for every history without rkCDColChkOBBVert and every check kind but the vertex check, which is characterised up to the tolerance and refuted to be history independent; the number of colliding pairs is right after volume computations, and refuted after box, polyhedron and vertex checks; no undefined behaviour without rkCDColChkOBBVert"},
  {"property": "C56", "status": "proved", "theorems": ["C56_broad_phase", "C56_cubes"], "note": "For every history without rkCDColChkOBBVert; the laws of the external box and polyhedron tests are premises, shown to hold for a concrete geometry"},
  {"property": "C57", "status": "partial", "theorems": ["C57_checks_partial", "C57_refuted", "C57_overrun_refuted"], "note": "Holds for histories without rkCDColChkOBBVert; refuted for that function, which also leads to an overrun of the vertex array"},
  {"property": "C58", "status": "partial", "theorems": ["C58_norm_partial", "C58_norm_translated_partial", "C58_axis_defect_partial", "C58_fresh_partial", "C58_axis_refuted"], "note": "Normals proved to turn with the other body and to be kept by translations; axes of continuing contacts refuted (a translation of the bodies is added to them; the exact defect is proved); axes of new contacts proved translation invariant if the external closest-point and inside functions are"},
  {"property": "C59", "status": "proved", "theorems": ["C59_beneath"], "note": "Over any ordered field, for every well-formed boundary representation (C71 shows that the conversion makes such); beneath is up to the tolerance, which has to be positive."},
  {"property": "C60", "status": "proved", "theorems": ["C60_motor_lookup_and_clone"], "note": ""},
  {"property": "C61", "status": "proved", "theorems": ["C61_clone_same_net_and_mass", "C61_clone_reverses_list"], "note": ""},
  {"property": "C62", "status": "partial", "theorems": ["C62_energy_balance_partial", "C62_float_energy_refuted"], "note": "Energy rate equals torque power plus external power for all mechanisms whose floating joints have parallel linear and angular velocity; the unrestricted statement is refuted by a floating body whose acceleration carries the extra 2 w x v."},
  {"property": "C63", "status": "proved", "theorems": ["C63_incremental", "C63_incremental_wrench"], "note": "The GetWrench variant is proved for chains without breakable floating joints, whose state changes during the pass."},
  {"property": "C64", "status": "partial", "theorems": ["C64_round_trip", "C64_last_keyword", "C64_created", "C64_unbound_refuted", "C64_leak_refuted", "C64_write_refuted"], "note": "Round trip, last keyword and agreement with the creation functions proved for the key lists (text level not modelled). Refuted: a section without bind makes the next one dereference a null key; coefficients leak through the union of the two parameter sets; WriteZTK uses an uninitialised file name."},
  {"property": "C65", "status": "proved", "theorems": ["C65_registered_cell"], "note": ""},
  {"property": "C66", "status": "partial", "theorems": ["C66_error_rate_partial", "C66_relative_error_rate", "C66_relative_cell_refuted"], "note": "Proved for world position and COM cells; for the link-to-link position cell the exact rate is proved and the property refuted (the rows leave out the rotation of the first link). Attitude cells are outside the statement."},
  {"property": "C67", "status": "proved", "theorems": ["C67_sequence"], "note": ""},
  {"property": "C68", "status": "proved", "theorems": ["C68_contact_plane"], "note": "For every history without rkCDColChkOBBVert"},
  {"property": "C69", "status": "proved", "theorems": ["C69_surface"], "note": "Over any ordered field, with a positive tolerance."},
  {"property": "C70", "status": "proved", "theorems": ["C70_reset"], "note": ""},
  {"property": "C71", "status": "proved", "theorems": ["C71_convert", "C71_surface"], "note": "The comparison of vectors and the test of a triangle against a box are arbitrary functions."},
  {"property": "C72", "status": "partial", "theorems": ["C72_counts_partial", "C72_coordinates_refuted", "C72_discarded_refuted"], "note": "False in the code: rkBREP2PH3D copies from the address of the pointer to the position, so that the coordinates are wrong (C72_coordinates_refuted), and it includes discarded faces (C72_discarded_refuted). Proved: the numbers of vertices and the vertex numbers of the faces."},
  {"property": "C73", "status": "partial", "theorems": ["C73_save_load_partial", "C73_settled", "C73_material_refuted", "C73_motorless_refuted", "C73_units"], "note": "Proved at the level of keys for chains whose links have a material and whose joint motors are in a non-empty motor array; order of shapes and siblings and rounding of numbers are not claimed. Refuted for links without material and for chains with movable joints and no motor array. Units in the file (degrees for angles) are proved."},
  {"property": "C74", "status": "partial", "theorems": ["C74_posture_partial", "C74_restore_partial", "C74_neutral_refuted"], "note": "Root frame and joints that are not neutral in the written posture are restored; joints neutral there keep their displacement, so the claim is refuted in general."},
  {"property": "C75", "status": "partial", "theorems": ["C75_read_partial", "C75_no_link", "C75_duplicate_refuted", "C75_fixed_init_refuted", "C75_loop_refuted", "C75_safe_refuted", "C75_detached_refuted"], "note": "Everything but tree shape and safety is proved for all files; refuted for duplicate names, initial displacement of fixed joints, parent loops and unknown parents."},
  {"property": "C76", "status": "partial", "theorems": ["C76_kept", "C76_facing_partial", "C76_normal_refuted"], "note": "Kept faces and the way faces face are proved for all planes. Normals: proved to be the earlier ones or zero; refuted that they are always the earlier ones, since the second part of a face cut in two gets no normal."},
  {"property": "C77", "status": "partial", "theorems": ["C77_torsion_recovers", "C77_torsion_splits", "C77_flipped_axis_refuted", "C77_tiny_tilt_refuted", "C77_gimbal_refuted"], "note": "Proved for every joint type over any ordered field with the stated contracts of atan2, sqrt, zVec3DAngle and zMat3DToAA (C77_torsion_recovers), and over R for every rigid deviation that is decomposable (C77_torsion_splits). Refuted: an upside-down z-axis gives no number for revolute and cylindrical joints, a tilt below the tolerance is lost, a universal joint whose y-axis lies along x loses its second angle."},
  {"property": "C78", "status": "partial", "theorems": ["C78_configuration", "C78_configuration_R", "C78_bent_universal_refuted"], "note": "Proved over any ordered field for configurations with exact angle-axis vectors, and over R for all postures within limits with universal joints bent by less than a right angle (angle-axis displacements shorter than a half turn come back; longer ones come back as the same attitude). Refuted for a universal joint beyond a right angle."},
  {"property": "C79", "status": "partial", "theorems": ["C79_rate", "C79_step", "C79_axes_refuted"], "note": "Proved with the errors of all three axes of every enabled cell. Refuted for cells with some axes disabled: the reported error counts the disabled axes too, so it may differ from zero though all constraints are met."},
  {"property": "C80", "status": "proved", "theorems": ["C80_position", "C80_attitude", "C80_com"], "note": "Over the real numbers; the attitude error is zMat3DError's, which is a parameter."},
  {"property": "C81", "status": "partial", "theorems": ["C81_configuration", "C81_reachable", "C81_rejected_refuted", "C81_constraint_first_refuted"], "note": "Proved for files without errors; for any file, what is read without a crash is a solver that library calls make. Refuted: a file with an unknown link or constraint type is not rejected, and a constraint before the first joint dereferences a null index."},
  {"property": "C82", "status": "partial", "theorems": ["C82_round_trip_partial", "C82_empty_item_refuted"], "note": "Up to the rounding of printed numbers. Refuted for items without entries where zAlloc of nothing returns NULL: such an item and all after it are lost."},
  {"property": "C83", "status": "proved", "theorems": ["C83_defined", "C83_inertia", "C83_velocity_free", "C83_symmetric", "C83_energy", "C83_nonneg", "C83_determined"], "note": "Exact arithmetic. All trees and joint types. Nothing is assumed about the frames being up to date; symmetry needs symmetric inertia tensors, non-negativity needs non-negative masses and positive semidefinite tensors."},
  {"property": "C84", "status": "partial", "theorems": ["C84_structure", "C84_poses_partial", "C84_shapes_partial", "C84_unrotated", "C84_rotated_refuted", "C84_order_refuted", "C84_same_name_refuted"], "note": "Poses and shapes under the stated condition on axes; refuted for rotated joint frames, for documents whose root link is not first and for repeated visual names."},
  {"property": "C85", "status": "partial", "theorems": ["C85_mass", "C85_world_partial", "C85_straight_partial", "C85_com_refuted", "C85_inertia_refuted"], "note": "Proved for links on an unturned parent whose center of mass is on the axis of the turn, and for documents with z axes only; refuted for the center of mass and for the inertia of deeper links."},
  {"property": "C86", "status": "partial", "theorems": ["C86_limits_partial", "C86_dynamics_refuted", "C86_type_refuted", "C86_default_limit_refuted", "C86_continuous_refuted"], "note": "Limits that are written are kept; refuted for damping and friction, floating and planar joints, limits left out, and continuous joints with limits."},
  {"property": "C87", "status": "partial", "theorems": ["C87_moves_like_the_links", "C87_no_other", "C87_order_irrelevant", "C87_same_as_combining", "C87_answers", "C87_light_refuted"], "note": "Holds when the total mass is not below the tolerance; for lighter bodies the centre of mass is not divided by the mass (refuted). A link number beyond the chain is undefined behaviour in the model, as in the program, which does not detect it."},
  {"property": "C88", "status": "partial", "theorems": ["C88_reads", "C88_motion", "C88_home", "C88_script", "C88_orphan", "C88_main_refuted", "C88_shape_refuted", "C88_order_refuted"], "note": "The conversion is proved for every valid table, and that an absent parent stops it; the main function exits before converting (refuted), and tables whose root is not first or shapes of unknown links are mishandled (refuted)."},
  {"property": "C89", "status": "partial", "theorems": ["C89_links", "C89_joints_partial", "C89_read_refuted", "C89_joint_refuted", "C89_attitude_refuted"], "note": "Mass properties, connections and positions are proved; attitudes only when azimuth equals tilt (others refuted); no written file can be read by urdf2ztk (refuted for every table)."},
  {"property": "C90", "status": "partial", "theorems": ["C90_rows", "C90_unknown", "C90_empty_refuted"], "note": "Full statement proved for non-empty sequences; C90_empty_refuted: an empty sequence is undefined behaviour."},
  {"property": "C91", "status": "partial", "theorems": ["C91_rows", "C91_total", "C91_acceleration", "C91_turn_refuted", "C91_uneven_refuted", "C91_fall_refuted"], "note": "Proved for displacements the joints take as they are; refuted past half a turn, for velocities between printed times with uneven steps, and in free fall."},
  {"property": "C92", "status": "partial", "theorems": ["C92_lines", "C92_targets", "C92_hold", "C92_prepared", "C92_configured", "C92_weights_refuted", "C92_posture_refuted"], "note": "proved for solvers set up without initial postures and with cells of position or attitude that are not forced; that a step which moves nothing does not affect later ones, and that a posture of the configuration file is kept, are refuted"},
  {"property": "C93", "status": "partial", "theorems": ["C93_lines", "C93_restore", "C93_restore_R", "C93_file_refuted"], "note": "Over the reals C93_restore_R needs universal joints bent by less than a right angle; displacements come back for angle-axis vectors shorter than a half turn. With an output file nothing is written (refuted)."},
  {"property": "C94", "status": "partial", "theorems": ["C94_restore", "C94_neutral_refuted", "C94_empty_refuted"], "note": "Joints neutral in the step must be so placed in the reading chain (without it: refuted). A sequence without steps is undefined behaviour (refuted)."},
  {"property": "C95", "status": "partial", "theorems": ["C95_ground", "C95_arguments_refuted", "C95_depth_refuted", "C95_names_refuted"], "note": "Proved over the reals for masses and depths above zero, with a C library that prints some text for a null string. Refuted: four arguments, depth below zero, names of the section."},
  {"property": "C96", "status": "partial", "theorems": ["C96_merge", "C96_stages", "C96_sequence_refuted"], "note": "Proved for seed files; sequence files in the present format cannot be merged (refuted)."},
  {"property": "C97", "status": "proved", "theorems": ["C97_vertices", "C97_ball", "C97_moved"], "note": ""},
  {"property": "C98", "status": "proved", "theorems": ["C98_contiguous"], "note": ""},
  {"property": "C99", "status": "partial", "theorems": ["C99_through", "C99_shared_refuted"], "note": "Holds when no shape is on two links; refuted otherwise."},
  {"property": "C100", "status": "proved", "theorems": ["C100_zero", "C100_volume", "C100_more", "C100_rotated", "C100_point", "C100_turn"], "note": "Jacobians of three rows; sqrt is a parameter that is zero exactly at zero."},
  {"property": "C101", "status": "partial", "theorems": ["C101_sr_minimiser", "C101_mp_least", "C101_rest", "C101_exact_refuted", "C101_report", "C101_limits"], "note": "SR minimiser, rest, report and limits hold without restriction; MP under the contract mp_solution of zLESolveMP at the call; that SR and the default method meet constraints that can be met is refuted by a witness."},
  {"property": "C102", "status": "partial", "theorems": ["C102_any_form", "C102_written", "C102_structure", "C102_poses_partial"], "note": "Same result for all ways of writing and the structure of C84 proved; the poses under the conditions of C84. Repeated elements are not covered."},
  {"property": "C103", "status": "partial", "theorems": ["C103_order", "C103_limits_refuted", "C103_unresolved_refuted"], "note": "Refuted for a displacement against its limits and for files with keys that fail (witnesses); proved for all other reorderings."},
  {"property": "C104", "status": "proved", "theorems": ["C104_reference", "C104_rows"], "note": "Position type cells (the ones that use rkIKAcmPos)."},
  {"property": "C105", "status": "proved", "theorems": ["C105_kinematics", "C105_dynamics"], "note": "The sum of the link masses must be the chain mass, and not zero, for the centre of mass."},
  {"property": "C106", "status": "partial", "theorems": ["C106_data", "C106_normal", "C106_swap", "C106_intersection", "C106_stale_refuted", "C106_fast_refuted"], "note": "Proved for the B-Rep computations; C106_intersection says what rkCDColVol does instead. Refuted: rkCDColVol keeps the old normal (C106_stale_refuted), rkCDColVolBREPFast with boxes that have nothing in common (C106_fast_refuted; C106_data excludes it). Truncation, hull and barycenter are ZEO functions, arbitrary here."},
  {"property": "C107", "status": "partial", "theorems": ["C107_both", "C107_vertices_refuted"], "note": "Proved but for the contact vertices of rigid pairs, which are kept from earlier calls (C107_vertices_refuted)."},
  {"property": "C108", "status": "proved", "theorems": ["C108_forward"], "note": "The chain must have joint coordinates (otherwise rkChainABI returns NULL) and its working memory must be allocated."},
  {"property": "C109", "status": "proved", "theorems": ["C109_linear", "C109_payload", "C109_scaled"], "note": "C109_linear is the general statement, with the mass properties given by their zeroth, first and second moments about the link origin; C109_payload is the case of rkMPCombine, C109_scaled the multiplication by k. Closed under the global context."},
  {"property": "C110", "status": "proved", "theorems": ["C110_tempo", "C110_motion"], "note": "C110_tempo relates two chains in the same posture, whatever rates and torques they hold before the call, with external wrenches that differ by the factor; C110_motion is the case of one chain after forward kinematics without external forces. Closed under the global context."},
  {"property": "C111", "status": "partial", "theorems": ["C111_faces", "C111_moved", "C111_other_shapes", "C111_primitive_refuted"], "note": "Proved for chains of polyhedra (C111_faces, C111_moved). Refuted for other shapes, which the program takes for polyhedra: C111_other_shapes, with a witness in C111_primitive_refuted."},
  {"property": "C112", "status": "proved", "theorems": ["C112_surface", "C112_radii", "C112_moved"], "note": "C112_surface gives the points of the surface, C112_radii the center and the radii, C112_moved the motion by rkMPXform. The eigenvalue routine is a parameter; what is assumed of it is eig_ok at the tensors it is called on. C112_not_poinsot shows that the surface is not the ellipsoid of Poinsot. Closed under the global context."}
]}

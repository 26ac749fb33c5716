{
 "claims": [
  {
   "property": "C01",
   "status": "proved",
   "theorems": [
    "C01_layout_of_reachable_states",
    "C01_layout_after_any_returning_call"
   ],
   "note": "For all states reachable from the constructor by respected calls, and for any returning call with arbitrary numerical arguments."
  },
  {
   "property": "C02",
   "status": "proved",
   "theorems": [
    "C02_marginalize",
    "C02_marginalize_returns_or_exits"
   ],
   "note": "All positions of the removed variable; joint covariance of every list of survivors; Exit when not top level."
  },
  {
   "property": "C03",
   "status": "proved",
   "theorems": [
    "C03_clone",
    "C03_clone_returns_or_exits"
   ],
   "note": "Top-level variables and sub-variables; Exit otherwise."
  },
  {
   "property": "C04",
   "status": "proved",
   "theorems": [
    "C04_augment_clone",
    "C04_augment_keeps_psd",
    "C04_second_clone_at_same_time_exits"
   ],
   "note": "Both option values; second clone at the same time exits."
  },
  {
   "property": "C05",
   "status": "proved",
   "theorems": [
    "C05_propagation",
    "C05_bad_orders_exit",
    "C05_propagation_returns"
   ],
   "note": "Any order and multiplicity of old variables; Q is read through its upper triangle as in the code; Exit branches."
  },
  {
   "property": "C06",
   "status": "proved",
   "theorems": [
    "C06_update"
   ],
   "note": "S is symmetric positive definite so K is the unique solution of K S = P H^T; every variable moved by its own block; camera objects refreshed."
  },
  {
   "property": "C07",
   "status": "proved",
   "theorems": [
    "C07_reachable_covariance_psd",
    "C07_respected_calls_return"
   ],
   "note": "Induction over all respected calls; progress shows the negative-diagonal exits are unreachable (exact arithmetic)."
  },
  {
   "property": "C08",
   "status": "proved",
   "theorems": [
    "C08_rejection_changes_nothing",
    "C08_initialize_exits",
    "C08_initialize_returns"
   ],
   "note": "The threshold uses all rows of the measurement (chi2q r), not the r-k rows tested: recorded as in the code."
  },
  {
   "property": "C09",
   "status": "proved",
   "theorems": [
    "C09_initialize_invertible",
    "C09_initialized_value"
   ],
   "note": "Exact joint covariance for every invertible H_L and isotropic noise."
  },
  {
   "property": "C10",
   "status": "proved",
   "theorems": [
    "C10_new_state",
    "C10_prior_positive"
   ],
   "note": "All option values and camera counts."
  },
  {
   "property": "C11",
   "status": "proved",
   "theorems": [
    "C11_marginal_covariance",
    "C11_marginal_covariance_returns",
    "C11_full_covariance"
   ],
   "note": "Any list of variables, repetitions allowed."
  },
  {
   "property": "C12",
   "status": "proved",
   "theorems": [
    "C12_marginalize_old_clone",
    "C12_window_bounded",
    "C12_frame"
   ],
   "note": "Histories of camera frames with arbitrary respected updates between propagation and marginalization; max_clone_size >= 1."
  },
  {
   "property": "C13",
   "status": "proved",
   "theorems": [
    "C13_marginalize_slam",
    "C13_marginalize_slam_returns"
   ],
   "note": "Any set of landmarks; also shows the call returns on reachable states."
  },
  {
   "property": "C14",
   "status": "proved",
   "theorems": [
    "C14_nullspace_projection",
    "C14_noise_and_model",
    "C14_returns"
   ],
   "note": "Givens loops of the code for all sizes; N spans exactly the left null space when H_f has full column rank."
  },
  {
   "property": "C15",
   "status": "proved",
   "theorems": [
    "C15_compression",
    "C15_same_posterior",
    "C15_returns"
   ],
   "note": "Includes equality of the posterior state of EKFUpdate with compressed and uncompressed measurements."
  },
  {
   "property": "C16",
   "status": "proved",
   "theorems": [
    "C16_msckf_update",
    "C16_slam_update"
   ],
   "note": "For every reachable state, database, feature list and every linearization of the right shape (jac_ok): the update returns, no write leaves the allocated blocks, and the state is that of one EKF update with the exact stack of the accepted systems."
  },
  {
   "property": "C17",
   "status": "proved",
   "theorems": [
    "C17_msckf_features",
    "C17_slam_features",
    "C17_delayed_features"
   ],
   "note": "All three updaters, every accept or reject outcome. SLAM features with fewer measurements than required are kept, as in the code; C17_slam_features states exactly which."
  },
  {
   "property": "C18",
   "status": "proved",
   "theorems": [
    "C18_anchors_live",
    "C18_frames_defined"
   ],
   "note": "max_clone_size >= 1 is assumed by `passes`; triangulation and Jacobian values inside delayed_init are arguments, constrained only by `sallowed`"
  },
  {
   "property": "C19",
   "status": "proved",
   "theorems": [
    "C19_update_feature",
    "C19_reachable",
    "C19_calls_return"
   ],
   "note": "Every database reachable by any sequence of the modelled FeatureDatabase and Feature operations, any number of features, cameras and measurements."
  },
  {
   "property": "C20",
   "status": "proved",
   "theorems": [
    "C20_not_containing_newer",
    "C20_containing_older",
    "C20_containing",
    "C20_fed_in_order",
    "C20_order_kept",
    "C20_unordered_refuted"
   ],
   "note": "Exact selection for databases whose tracks are in time order; C20_fed_in_order shows in-order feeding gives such databases; C20_unordered_refuted shows the newer-than query is wrong otherwise."
  },
  {
   "property": "C21",
   "status": "proved",
   "theorems": [
    "C21_cleanup",
    "C21_cleanup_measurements",
    "C21_cleanup_measurements_exact",
    "C21_clean_old",
    "C21_clean_invalid"
   ],
   "note": "All databases, all time lists and thresholds."
  },
  {
   "property": "C22",
   "status": "proved",
   "theorems": [
    "C22_append",
    "C22_union",
    "C22_no_new_duplicates",
    "C22_order_refuted",
    "C22_source_duplicates_refuted"
   ],
   "note": "Union of measurements for every pair of databases. Two stronger readings are refuted: time order is not preserved, and duplicates inside the source database are copied."
  },
  {
   "property": "C23",
   "status": "proved",
   "theorems": [
    "C23_selection_covers_interval",
    "C23_empty_result",
    "C23_late_data",
    "C23_early_data",
    "C23_initializer_selection_refuted"
   ],
   "note": "The initializer's own copy (helper.h) is refuted: it stops before t1 when the last reading is exactly at t1. Early data: the last reading is replaced by an extrapolation."
  },
  {
   "property": "C24",
   "status": "proved",
   "theorems": [
    "C24_buffer_contents",
    "C24_needed_readings_kept",
    "C24_needed_readings_kept_refuted"
   ],
   "note": "The part about later propagations needs offset >= -0.10 s; refuted otherwise (camera time compared with IMU times)."
  },
  {
   "property": "C25",
   "status": "proved",
   "theorems": [
    "C25_interpolation",
    "C25_interpolation_bounds"
   ],
   "note": "equal timestamps excluded (division by zero)"
  },
  {
   "property": "C26",
   "status": "proved",
   "theorems": [
    "C26_quat_2_Rot_is_rotation",
    "C26_quat_axis_angle",
    "C26_quat_multiply",
    "C26_quat_inverse",
    "C26_double_cover",
    "C26_quatnorm",
    "C26_Omega_is_pure_quaternion_product"
   ],
   "note": "All unit quaternions; exact reals."
  },
  {
   "property": "C27",
   "status": "proved",
   "theorems": [
    "C27_rot_2_quat",
    "C27_rot_2_quat_of_quat"
   ],
   "note": "All rotation matrices, all four branches."
  },
  {
   "property": "C28",
   "status": "proved",
   "theorems": [
    "C28_skew_is_cross_product",
    "C28_vee_skew",
    "C28_skew_vee",
    "C28_exp_is_rotation",
    "C28_exp_is_matrix_exponential",
    "C28_exp_neg_is_transpose",
    "C28_exp_small_angle",
    "C28_log_exp",
    "C28_log_exp_taylor_branch",
    "C28_log_exp_small_branch",
    "C28_exp_log",
    "C28_exp_log_half_turn",
    "C28_exp_log_near_pi_refuted",
    "C28_left_jacobian",
    "C28_right_jacobian"
   ],
   "note": "Branch thresholds exactly as in the code; small-angle and Taylor branches stated exactly; round trip refuted strictly between pi-1e-5 and pi (C28_exp_log_near_pi_refuted)."
  },
  {
   "property": "C29",
   "status": "proved",
   "theorems": [
    "C29_inverse",
    "C29_exp_se3_rigid",
    "C29_exp_se3_inverse",
    "C29_log_exp_se3"
   ],
   "note": "Rigid transforms as (R,p) pairs; small-angle branch excluded."
  },
  {
   "property": "C30",
   "status": "proved",
   "theorems": [
    "C30_elementary_rotations",
    "C30_rpy_reconstructs",
    "C30_rpy_gimbal_up",
    "C30_rpy_gimbal_down_refuted"
   ],
   "note": "Away from gimbal lock and at pitch +90; refuted at pitch -90 degrees (C30_rpy_gimbal_down_refuted)."
  },
  {
   "property": "C31",
   "status": "proved",
   "theorems": [
    "C31_update_moves_each_part",
    "C31_update_returns",
    "C31_update_zero",
    "C31_cayley"
   ],
   "note": "Rotation update is the exact Cayley rotation, first order I - [d]x; all variable classes."
  },
  {
   "property": "C32",
   "status": "proved",
   "theorems": [
    "C32_jacobians",
    "C32_unique"
   ],
   "note": ""
  },
  {
   "property": "C33",
   "status": "proved",
   "theorems": [
    "C33_jacobians",
    "C33_axis",
    "C33_everywhere_refuted"
   ],
   "note": "The \"everywhere\" reading is refuted on the optical axis (C33_everywhere_refuted), as the statement says."
  },
  {
   "property": "C34",
   "status": "proved",
   "theorems": [
    "C34_round_trip",
    "C34_round_trip_fej",
    "C34_fej_refuted",
    "C34_parameters"
   ],
   "note": "The first-estimate round trip is refuted for ANCHORED_MSCKF_INVERSE_DEPTH and ANCHORED_INVERSE_DEPTH_SINGLE (C34_fej_refuted); proved for the other four."
  },
  {
   "property": "C35",
   "status": "proved",
   "theorems": [
    "C35_anchored",
    "C35_global",
    "C35_stored_refuted"
   ],
   "note": "Proved for the canonical parameters of the point; refuted for stored full-inverse-depth parameters outside the canonical chart (C35_stored_refuted)."
  },
  {
   "property": "C36",
   "status": "proved",
   "theorems": [
    "C36_derivatives",
    "C36_both_modes",
    "C36_defined"
   ],
   "note": ""
  },
  {
   "property": "C37",
   "status": "proved",
   "theorems": [
    "C37_exact",
    "C37_least_squares",
    "C37_range",
    "C37_exact_1d",
    "C37_anchor",
    "C37_defined"
   ],
   "note": "Eigen's QR solver enters as any function that solves nonsingular systems; singular values as any function."
  },
  {
   "property": "C38",
   "status": "proved",
   "theorems": [
    "C38_terminates",
    "C38_passes",
    "C38_fuel",
    "C38_defined",
    "C38_descent",
    "C38_checks",
    "C38_gradient",
    "C38_zero_lambda_refuted"
   ],
   "note": "Refuted outside the stated range: with init_lamda = 0 the loop may never end."
  },
  {
   "property": "C39",
   "status": "proved",
   "theorems": [
    "C39_basis",
    "C39_velocity",
    "C39_acceleration",
    "C39_curves_exist",
    "C39_velocity_knot",
    "C39_acceleration_knot",
    "C39_clear",
    "C39_velocity_near",
    "C39_velocity_near_refuted"
   ],
   "note": "the exact claim fails inside the small-angle switch just after a knot (C39_velocity_near_refuted); there the velocity error is bounded, angular rate and acceleration are not treated"
  },
  {
   "property": "C40",
   "status": "proved",
   "theorems": [
    "C40_control_points",
    "C40_enough_points",
    "C40_feed",
    "C40_window",
    "C40_last_pose_ignored"
   ],
   "note": "finding: the last line of the trajectory file is dropped (C40_last_pose_ignored)"
  },
  {
   "property": "C41",
   "status": "proved",
   "theorems": [
    "C41_gram_schmidt_is_rotation",
    "C41_gram_schmidt_defined"
   ],
   "note": "exact real arithmetic; zero vector is the only undefined input (proved)"
  },
  {
   "property": "C42",
   "status": "proved",
   "theorems": [
    "C42_static_initialization",
    "C42_static_acceptance"
   ],
   "note": "acceptance is characterised in both directions"
  },
  {
   "property": "C43",
   "status": "proved",
   "theorems": [
    "C43_polynomial",
    "C43_roots_give_gravity",
    "C43_companion_eigenvalues"
   ],
   "note": "eigenvalue solver itself is external"
  },
  {
   "property": "C44",
   "status": "proved",
   "theorems": [
    "C44_disparity",
    "C44_disparity_range",
    "C44_disparity_once",
    "C44_disparity_range_chronological",
    "C44_failure_report_refuted"
   ],
   "note": "the failure report (-1) is false of the code: C44_failure_report_refuted (no match gives mean 0/0, one match deviation 0/0); everything else for every database"
  },
  {
   "property": "C45",
   "status": "proved",
   "theorems": [
    "C45_ids_unique",
    "C45_never_reused",
    "C45_simulated_ids",
    "C45_simulated_last",
    "C45_aruco_range",
    "C45_aruco_ids_distinct",
    "C45_aruco_ids_refuted"
   ],
   "note": "KLT and simulated tracker proved for all runs; for TrackAruco distinctness is proved for tag ids below max_tag_id and refuted (C45_aruco_ids_refuted) for the tag id equal to it, which the code lets through. TrackDescriptor is not modelled."
  },
  {
   "property": "C46",
   "status": "proved",
   "theorems": [
    "C46_rename_keeps_track",
    "C46_rename_collision_refuted"
   ],
   "note": "Proved for an unused new id as the statement says; C46_rename_collision_refuted shows the loss for a used one."
  },
  {
   "property": "C47",
   "status": "proved",
   "theorems": [
    "C47_thinning",
    "C47_min_distance_refuted"
   ],
   "note": "One point per min_px_dist cell (as stated); the stronger pairwise distance reading is refuted. Grider_GRID itself is an argument. The left loop of the stereo case is the same function; for the right image only id uniqueness (C45) is proved."
  },
  {
   "property": "C48",
   "status": "proved",
   "theorems": [
    "C48_association",
    "C48_nearest",
    "C48_nearest_at_tolerance_refuted"
   ],
   "note": "extra: the nearest-neighbour reading fails when an entry lies exactly at the tolerance (C48_nearest_at_tolerance_refuted)"
  },
  {
   "property": "C49",
   "status": "proved",
   "theorems": [
    "C49_calculate",
    "C49_order_independent",
    "C49_second_call_refuted"
   ],
   "note": "all numbers characterised; the repeated-call part of the statement is false of the code: C49_second_call_refuted (rmse is never reset)"
  },
  {
   "property": "C50",
   "status": "proved",
   "theorems": [
    "C50_yaw_alignment_optimal",
    "C50_exact_alignment",
    "C50_single_pose"
   ],
   "note": "the SVD is an arbitrary oracle here (its result is not used with yaw_only)"
  },
  {
   "property": "C51",
   "status": "proved",
   "theorems": [
    "C51_segments",
    "C51_distances"
   ],
   "note": "every list, first nearest index within tolerance or none"
  },
  {
   "property": "C52",
   "status": "proved",
   "theorems": [
    "C52_clock_monotone"
   ],
   "note": "Frame-level model of do_feature_propagate_update with zero-velocity updates disabled; IMU messages do not touch the state."
  },
  {
   "property": "C53",
   "status": "proved",
   "theorems": [
    "C53_rejected_changes_nothing",
    "C53_accepted_update",
    "C53_decision",
    "C53_returns",
    "C53_jacobian_exact_iff",
    "C53_jacobian_calibrated_refuted",
    "C53_old_image_moves_clock_back_refuted"
   ],
   "note": "the stronger reading 'the clock never goes back' is refuted (C53_old_image_moves_clock_back_refuted), as is exactness of the Jacobian for calibrated sensors"
  },
  {
   "property": "C54",
   "status": "proved",
   "theorems": [
    "C54_progress",
    "C54_time_order",
    "C54_rates",
    "C54_stops"
   ],
   "note": ""
  },
  {
   "property": "C55",
   "status": "proved",
   "theorems": [
    "C55_noise_free",
    "C55_with_noise",
    "C55_end_to_end"
   ],
   "note": "The QR solve of the simulator is a quantified exact inverse."
  },
  {
   "property": "C56",
   "status": "proved",
   "theorems": [
    "C56_H_D",
    "C56_H_Tg"
   ],
   "note": ""
  },
  {
   "property": "C57",
   "status": "proved",
   "theorems": [
    "C57_conserved",
    "C57_waits",
    "C57_single_order",
    "C57_multi_order_refuted"
   ],
   "note": "the English claim (one stream) is proved for all interleavings; with three or more cameras global order is false: C57_multi_order_refuted; the multi-threaded mode is not modelled"
  },
  {
   "property": "C58",
   "status": "proved",
   "theorems": [
    "C58_noninterference",
    "C58_returns",
    "C58_replay",
    "C58_interval",
    "C58_answer",
    "C58_psd",
    "C58_clock",
    "C58_no_answer",
    "C58_backwards_refuted",
    "C58_intrinsics_refuted",
    "C58_local_velocity",
    "C58_local_velocity_refuted"
   ],
   "note": "Non-interference, replay and agreement with the filter's discrete prediction proved for every call sequence. The covariance agreement holds under ideal intrinsics / FEJ not in force (C58_answer); C58_intrinsics_refuted, C58_backwards_refuted and C58_local_velocity_refuted give the cases where the reported covariance is wrong."
  },
  {
   "property": "C59",
   "status": "proved",
   "theorems": [
    "C59_exactly_when",
    "C59_transition",
    "C59_noise",
    "C59_transition_refuted"
   ],
   "note": "Refuted in general by C59_transition_refuted (missing Dw factor); proved whenever that factor makes no difference. Rates where the series switches of exp/log are active are excluded (regular_rate)."
  },
  {
   "property": "C60",
   "status": "proved",
   "theorems": [
    "C60_value",
    "C60_first_estimate",
    "C60_first_estimate_refuted",
    "C60_covariance",
    "C60_optical_axis_refuted",
    "C60_others_untouched",
    "C60_defined"
   ],
   "note": "first-estimate half is false for ANCHORED_MSCKF_INVERSE_DEPTH (refuted); colPivHouseholderQr().solve is the exact inverse"
  },
  {
   "property": "C61",
   "status": "proved",
   "theorems": [
    "C61_listings",
    "C61_every_landmark_once",
    "C61_position_unique"
   ],
   "note": "listings total on states with live anchors (C18); ids <= 4*max_aruco are tags"
  },
  {
   "property": "C62",
   "status": "proved",
   "theorems": [
    "C62_kalibr_identity",
    "C62_rpng_refuted",
    "C62_config_D",
    "C62_config_Tg"
   ],
   "note": "Refuted for the RPNG model; proved for KALIBR."
  },
  {
   "property": "C63",
   "status": "proved",
   "theorems": [
    "C63_oldest_timestamp",
    "C63_get_feature",
    "C63_get_feature_clone"
   ],
   "note": "get_oldest_timestamp for tracks in time order; get_feature and get_feature_clone for all databases."
  },
  {
   "property": "C66",
   "status": "proved",
   "theorems": [
    "C66_se3_alignment_optimal",
    "C66_sim3_alignment_optimal"
   ],
   "note": "hypothesis: contract of the SVD of the correlation matrix at hand"
  },
  {
   "property": "C67",
   "status": "proved",
   "theorems": [
    "C67_construction",
    "C67_aligned_pose",
    "C67_relative_errors",
    "C67_absolute_errors",
    "C67_relative_error_of_moved",
    "C67_relative_error_frame_free"
   ],
   "note": "frame independence is stated for the position part"
  },
  {
   "property": "C68",
   "status": "proved",
   "theorems": [
    "C68_frame_recorded",
    "C68_stereo_frame_recorded",
    "C68_stereo_inside_refuted"
   ],
   "note": "Proved for every reachable state. For stereo frames the inside-image/off-mask part is refuted (C68_stereo_inside_refuted): line 308 uses > and there is no mask check."
  },
  {
   "property": "C69",
   "status": "proved",
   "theorems": [
    "C69_exact",
    "C69_slow_refuted"
   ],
   "note": "Below the small-rate switch the statement is refuted (C69_slow_refuted)."
  },
  {
   "property": "C70",
   "status": "proved",
   "theorems": [
    "C70_transition",
    "C70_noise"
   ],
   "note": "For rates above the small-rate switch and without an active first-estimate substitution."
  },
  {
   "property": "C71",
   "status": "proved",
   "theorems": [
    "C71_interval_noise",
    "C71_summed",
    "C71_error",
    "C71_state"
   ],
   "note": ""
  },
  {
   "property": "C72",
   "status": "proved",
   "theorems": [
    "C72_straight",
    "C72_textbook"
   ],
   "note": "the step is identified with the textbook method for every rate; exactness is proved without rotation, no error bound is stated for rotating motion"
  },
  {
   "property": "C73",
   "status": "proved",
   "theorems": [
    "C73_truth_bias",
    "C73_truth_defined",
    "C73_covered",
    "C73_all_but_last",
    "C73_minus_one_refuted"
   ],
   "note": "Frames stamped exactly -1 are excluded (refuted by C73_minus_one_refuted)."
  },
  {
   "property": "C74",
   "status": "proved",
   "theorems": [
    "C74_pixels",
    "C74_visible",
    "C74_ids",
    "C74_generated_ids",
    "C74_generated_visible"
   ],
   "note": ""
  },
  {
   "property": "C75",
   "status": "proved",
   "theorems": [
    "C75_unobservable",
    "C75_fixed_direction",
    "C75_current_refuted"
   ],
   "note": "Independence of the direction from the current estimates holds only in first-estimate mode (C75_current_refuted)."
  },
  {
   "property": "C76",
   "status": "proved",
   "theorems": [
    "C76_clock_with_zero_velocity_updates",
    "C76_past_image_exit_refuted"
   ],
   "note": "hypothesis 'images not older than the state' is needed: C76_past_image_exit_refuted"
  },
  {
   "property": "C64",
   "status": "proved",
   "theorems": [
    "C64_used_once"
   ],
   "note": "partial correctness: for every run that returns; hypothesis: no single-inverse-depth landmarks"
  },
  {
   "property": "C77",
   "status": "proved",
   "theorems": [
    "C77_landmark_budget"
   ],
   "note": "partial correctness: for every run that returns"
  },
  {
   "property": "C79",
   "status": "proved",
   "theorems": [
    "C79_tracks_taken",
    "C79_late_image"
   ],
   "note": "Messages that end in a zero-velocity update or have too few clones are the stated alternative no_update. Single inverse-depth landmarks are excluded by hypothesis."
  },
  {
   "property": "C80",
   "status": "proved",
   "theorems": [
    "C80_landmark_fate",
    "C80_failures_accumulate"
   ],
   "note": "The count of failures is never reset by a success, contrary to the code comment; stated as C80_failures_accumulate."
  },
  {
   "property": "C78",
   "status": "proved",
   "theorems": [
    "C78_delayed_calls",
    "C78_corner_options",
    "C78_tag_noise_refuted"
   ],
   "note": "The sentence \"every corner of a tag gets the noise of tags\" is refuted (C78_tag_noise_refuted); C78_corner_options says exactly which corner gets which options."
  },
  {
   "property": "C65",
   "status": "proved",
   "theorems": [
    "C65_dispatch",
    "C65_returns",
    "C65_never_without_threshold"
   ],
   "note": "The dynamic initializer is an argument. C65_never_without_threshold contradicts the comment at InertialInitializer.cpp 106: with init_max_disparity <= 0 and wait_for_jerk no initializer runs."
  },
  {
   "property": "C81",
   "status": "proved",
   "theorems": [
    "C81_forward",
    "C81_interleaved",
    "C81_unordered_exits"
   ],
   "note": "Atomicity: the final section of the thread holds the queue lock and is one event; atomics are sequentially consistent. The propagated mean and covariance are the quantified propagation inputs of the state model."
  },
  {
   "property": "C82",
   "status": "proved",
   "theorems": [
    "C82_means",
    "C82_slow_refuted"
   ],
   "note": "C82_slow_refuted: for a rate between 0 and the threshold the truncated series stored in R is not orthogonal."
  },
  {
   "property": "C83",
   "status": "proved",
   "theorems": [
    "C83_bias_jacobians"
   ],
   "note": "Rates exactly at or below the threshold (other than zero) are excluded: there the coded coefficients jump."
  },
  {
   "property": "C84",
   "status": "proved",
   "theorems": [
    "C84_poses",
    "C84_rows",
    "C84_defined",
    "C84_rotation",
    "C84_angle",
    "C84_few_readings_refuted"
   ],
   "note": "Ceres refinement (571-1100) is C92 and C93; with two readings the assert of line 178 fails (C84_few_readings_refuted)"
  },
  {
   "property": "C85",
   "status": "proved",
   "theorems": [
    "C85_truth"
   ],
   "note": ""
  },
  {
   "property": "C86",
   "status": "proved",
   "theorems": [
    "C86_solution",
    "C86_found",
    "C86_exact_gives_up",
    "C86_exact_data_gives_up"
   ],
   "note": "for an eigenvalue with D - lambda I not positive definite only stationarity data are shown (gravity within 1e-3); llt of an indefinite matrix is left to the contract of ya_inv3"
  },
  {
   "property": "C87",
   "status": "proved",
   "theorems": [
    "C87_guess"
   ],
   "note": "holds for every oracle, hence also for inexact solves; features are checked against the first pose only, as in the code"
  },
  {
   "property": "C88",
   "status": "proved",
   "theorems": [
    "C88_plus_turns",
    "C88_plus_derivative",
    "C88_minus_plus",
    "C88_plus_minus",
    "C88_minus_tiny_refuted",
    "C88_plus_jacobian_refuted"
   ],
   "note": "Two literal readings are refuted: Minus loses turns below 1e-8, and PlusJacobian is not the derivative of the quaternion values."
  },
  {
   "property": "C89",
   "status": "proved",
   "theorems": [
    "C89_value",
    "C89_jacobians"
   ],
   "note": "`regular`: the point is not in the camera plane, and off the optical axis by 1e-8 for the fisheye model, as in C33."
  },
  {
   "property": "C90",
   "status": "proved",
   "theorems": [
    "C90_jacobians",
    "C90_small_turns",
    "C90_zero",
    "C90_cost",
    "C90_true_motion",
    "C90_bias_first_order",
    "C90_half_turn_refuted",
    "C90_far_bias_refuted"
   ],
   "note": "Derivative claim needs the gyroscope bias at its linearization point and turns below a quarter turn; both conditions are shown necessary by C90_far_bias_refuted and C90_half_turn_refuted."
  },
  {
   "property": "C91",
   "status": "proved",
   "theorems": [
    "C91_unknown_type",
    "C91_sizes",
    "C91_not_a_number",
    "C91_value",
    "C91_jacobians",
    "C91_cost",
    "C91_constant",
    "C91_gradient_refuted"
   ],
   "note": "Rotation blocks at the linearization point or with a logarithm inside the exact branch (not within 1e-7 in trace of it). C91_gradient_refuted: documentation says A^T b = grad."
  },
  {
   "property": "C92",
   "status": "proved",
   "theorems": [
    "C92_problem",
    "C92_zero",
    "C92_truth"
   ],
   "note": "Eigen factorizations are oracles whose success is a hypothesis (priors_ok, spans_ok); ceres::Solve itself is not modelled. Cameras are those of observations at pose times (one direction)."
  },
  {
   "property": "C93",
   "status": "proved",
   "theorems": [
    "C93_cov",
    "C93_psd",
    "C93_shrink_refuted",
    "C93_defined",
    "C93_state",
    "C93_untouched_refuted",
    "C93_position_refuted"
   ],
   "note": "Ceres solver result, convergence flag and covariance blocks are arguments. Clones of earlier calls still in the map are left out."
  },
  {
   "property": "C94",
   "status": "proved",
   "theorems": [
    "C94_eye",
    "C94_system",
    "C94_whole",
    "C94_stereo_refuted",
    "C94_position",
    "C94_exact",
    "C94_recovered"
   ],
   "note": "Linear solve and singular values are oracles with a contract (solves, sv_ok). Stereo reading refuted."
  },
  {
   "property": "C95",
   "status": "proved",
   "theorems": [
    "C95_landmark",
    "C95_uvd",
    "C95_defined"
   ],
   "note": "The early return on a message without a clone is outside (the caller adds the clone)."
  },
  {
   "property": "C96",
   "status": "proved",
   "theorems": [
    "C96_start",
    "C96_constructed"
   ],
   "note": "The values 0.017, 0.05, 0.01, 0.02, 0.02 are read from the source."
  },
  {
   "property": "C97",
   "status": "proved",
   "theorems": [
    "C97_grid",
    "C97_cells",
    "C97_defined",
    "C97_quota_refuted"
   ],
   "note": "Sub-pixel refinement may move points anywhere; the claims on position are before it. One sub-reading refuted (masked corners use up places)."
  },
  {
   "property": "C98",
   "status": "proved",
   "theorems": [
    "C98_search",
    "C98_mask",
    "C98_free",
    "C98_found",
    "C98_few_refuted",
    "C98_edge",
    "C98_zero_refuted"
   ],
   "note": "Monocular call; the two stereo calls have the same text. Refuted for fewer features than cells and for zero features."
  },
  {
   "property": "C99",
   "status": "proved",
   "theorems": [
    "C99_match",
    "C99_detect",
    "C99_detect_all",
    "C99_ids",
    "C99_mono",
    "C99_stereo",
    "C99_defined",
    "C99_exit",
    "C99_pairs",
    "C99_mixed_refuted",
    "C99_spacing_refuted",
    "C99_size_refuted",
    "C99_first_refuted"
   ],
   "note": "Grider_FAST (same scheme as Grider_GRID, C97) is part of the extraction argument. Four sub-readings refuted: mixing single images with pairs, spacing of stereo detections, a larger right image, recording of the first image."
  },
  {
   "property": "C100",
   "status": "proved",
   "theorems": [
    "C100_fed",
    "C100_start",
    "C100_exit",
    "C100_nan",
    "C100_defined"
   ],
   "note": "Reading the trajectory file (DatasetReader) is not modelled."
  },
  {
   "property": "C101",
   "status": "proved",
   "theorems": [
    "C101_enough",
    "C101_points",
    "C101_ids",
    "C101_prefix",
    "C101_between_refuted"
   ],
   "note": "Distortion and undistortion are assumed inverse to each other on the image for C101_enough. Two wider readings refuted: frames between the synthetic ones, first camera unchanged by a second one."
  },
  {
   "property": "C102",
   "status": "proved",
   "theorems": [
    "C102_truth",
    "C102_perturbed",
    "C102_independent",
    "C102_off",
    "C102_noise_refuted"
   ],
   "note": "Camera objects of different cameras are assumed distinct (as the parser makes them). Independent noise of the cameras refuted."
  },
  {
   "property": "C103",
   "status": "proved",
   "theorems": [
    "C103_symmetric",
    "C103_bias",
    "C103_order",
    "C103_still",
    "C103_rates_unique",
    "C103_psd_refuted"
   ],
   "note": "Order two (four without rotation) of one step of constant rate and force. Semidefiniteness refuted for a step of one second with the default noises."
  },
  {
   "property": "C104",
   "status": "proved",
   "theorems": [
    "C104_success",
    "C104_flag",
    "C104_complete",
    "C104_sources",
    "C104_bool",
    "C104_folder",
    "C104_exit_file",
    "C104_folder_refuted",
    "C104_matrix_refuted",
    "C104_nofile_refuted"
   ],
   "note": "Of the settings, those that decide about calibration are modelled; ROS overrides as under ROS 1. Three readings refuted."
  },
  {
   "property": "C105",
   "status": "proved",
   "theorems": [
    "C105_camera",
    "C105_agree",
    "C105_keys",
    "C105_mask",
    "C105_mask_size",
    "C105_mask_refuted"
   ],
   "note": "The mask size reading is refuted: with downsampling a mask that passes the load check is halved again before tracking."
  },
  {
   "property": "C106",
   "status": "proved",
   "theorems": [
    "C106_imu",
    "C106_exit_model",
    "C106_triangular_refuted"
   ],
   "note": "Non-triangular scale matrices refuted."
  },
  {
   "property": "C107",
   "status": "proved",
   "theorems": [
    "C107_terminates",
    "C107_batches",
    "C107_loop",
    "C107_pieces_unique",
    "C107_zero_refuted",
    "C107_negative_refuted"
   ],
   "note": "Sizes of zero and below are accepted by the options and refuted."
  },
  {
   "property": "C108",
   "status": "proved",
   "theorems": [
    "C108_lines",
    "C108_words",
    "C108_samples",
    "C108_data",
    "C108_csv",
    "C108_simulation",
    "C108_trajectory",
    "C108_missing",
    "C108_percent",
    "C108_blank_refuted"
   ],
   "note": "An empty line in a timing file is read out of range (refuted)."
  },
  {
   "property": "C109",
   "status": "proved",
   "theorems": [
    "C109_load",
    "C109_lookup",
    "C109_format_refuted"
   ],
   "note": "The documented exit for files in the wrong format holds for long lines only (refuted for short ones)."
  },
  {
   "property": "C110",
   "status": "proved",
   "theorems": [
    "C110_errors",
    "C110_wrap",
    "C110_rates",
    "C110_nees",
    "C110_nees_sign",
    "C110_nees_without",
    "C110_planar",
    "C110_angle_refuted"
   ],
   "note": "A half turn and singular covariances are excluded from the normalized errors; the angle reading of the axis errors is refuted."
  },
  {
   "property": "C111",
   "status": "proved",
   "theorems": [
    "C111_files",
    "C111_state",
    "C111_time",
    "C111_intrinsics",
    "C111_extrinsics",
    "C111_imu",
    "C111_turn",
    "C111_written",
    "C111_outside_refuted",
    "C111_foreign"
   ],
   "note": "C111_turn is about unit quaternions; for quaternions rounded to six digits the theorems name the value through log_so3. The fourth deviation of an IMU rotation is refuted."
  },
  {
   "property": "C112",
   "status": "proved",
   "theorems": [
    "C112_adjoin",
    "C112_total",
    "C112_zero_velocity_refuted"
   ],
   "note": "Changes between propagations must keep the time of the state; for a zero velocity update, which does not, the claim is refuted. In that refutation the update is represented only by its effect on the time of the state; that it used the readings up to its own new offset is read off UpdaterZeroVelocity.cpp 94."
  }
 ]
}
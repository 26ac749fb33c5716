{"id": "C01", "title": "Covariance layout stays consistent", "statement": "After construction and after any sequence of clone / marginalize / augment / initialize operations that does not terminate the process, the covariance blocks of the variables held by the state tile the covariance matrix exactly: block offsets are consecutive, disjoint, start at 0 and end at the matrix dimension, and every sub-variable (orientation, position, ... inside a pose or the IMU) sits inside its parent's block.", "quantifier": "every state options value, every finite sequence of state-management calls, every variable size", "why_tests_cant": "the number of reachable histories is infinite and an off-by-one shift only corrupts later, unrelated calls", "anchors": ["ov_msckf/src/state/StateHelper.cpp: StateHelper::clone, StateHelper::marginalize, StateHelper::initialize_invertible, StateHelper::augment_clone", "ov_msckf/src/state/State.cpp: State::State", "ov_core/src/types/*.h: set_local_id"]}
{"id": "C02", "title": "Marginalizing removes one variable and nothing else", "statement": "StateHelper::marginalize(v) shrinks the covariance by v's size; for every two remaining variables the joint covariance returned by get_marginal_covariance is exactly what it was before, their values and first estimates are untouched, v is out of the state (id -1), and asking to marginalize something that is not a top-level variable of the state terminates the process instead of changing the state.", "quantifier": "every state, every position of the removed variable, every pair of survivors", "why_tests_cant": "needs every layout and every position of the removed block; unit tests exercise a handful", "anchors": ["ov_msckf/src/state/StateHelper.cpp: StateHelper::marginalize, StateHelper::get_marginal_covariance"]}
{"id": "C03", "title": "A clone is an exact stochastic copy", "statement": "StateHelper::clone(v) appends a variable whose value and first estimate equal v's, and the new covariance is J P J^T for the J that stacks the identity over the rows of v: the clone is perfectly correlated with v, all old blocks are unchanged. v may be a top-level variable or a sub-variable; otherwise the process terminates.", "quantifier": "every state, every top-level variable or sub-variable", "why_tests_cant": "all layouts and all sub-variable offsets have to be covered", "anchors": ["ov_msckf/src/state/StateHelper.cpp: StateHelper::clone"]}
{"id": "C04", "title": "Augmenting a clone with time-offset calibration is a linear map of the covariance", "statement": "StateHelper::augment_clone adds the current IMU pose as the clone of the current time; with camera-IMU time offset calibration enabled the resulting covariance is exactly J P J^T where the clone rows of J are the pose rows plus [last_w; v] times the time-offset row, so symmetry and positive semi-definiteness are preserved; a second clone at the same time terminates the process.", "quantifier": "every state, every angular velocity, every option value", "why_tests_cant": "universal over real matrices and histories", "anchors": ["ov_msckf/src/state/StateHelper.cpp: StateHelper::augment_clone"]}
{"id": "C05", "title": "Propagation computes Phi P Phi^T + Q on the chosen block", "statement": "StateHelper::EKFPropagation replaces the covariance by F P F^T + E Q E^T where F is the identity except for the given Phi in the rows of the new variables and columns of the old variables, whatever order the old variables are given in; every other block is unchanged; the result is symmetric; empty or non-contiguous orders terminate the process.", "quantifier": "every covariance, every Phi, symmetric Q, every variable ordering", "why_tests_cant": "the block assembly is order dependent and must be right for all orderings and sizes", "anchors": ["ov_msckf/src/state/StateHelper.cpp: StateHelper::EKFPropagation"]}
{"id": "C06", "title": "The update is the Kalman update in any variable order", "statement": "StateHelper::EKFUpdate with measurement Jacobian H given on any ordered subset of variables produces K = P Hf^T (Hf P Hf^T + R)^-1 for the full-width Hf, covariance P - K S K^T (symmetric), and moves every variable in the state by exactly its own block of K*res through its own update rule.", "quantifier": "every state, every subset/order of involved variables, all H, R positive definite, all residuals", "why_tests_cant": "index mapping between small and full Jacobians has to be right for all orders and sizes", "anchors": ["ov_msckf/src/state/StateHelper.cpp: StateHelper::EKFUpdate, StateHelper::get_marginal_covariance"]}
{"id": "C07", "title": "The covariance is always symmetric positive semi-definite", "statement": "Starting from a symmetric PSD covariance, every sequence of clone, augment, marginalize, propagate (PSD Q), update (PD R) and delayed initialization keeps it symmetric PSD, so the negative-diagonal checks that terminate the process can never fire (exact arithmetic).", "quantifier": "every finite sequence of filter operations", "why_tests_cant": "an inductive property over unbounded histories", "anchors": ["ov_msckf/src/state/StateHelper.cpp"]}
{"id": "C08", "title": "A rejected delayed initialization changes nothing", "statement": "StateHelper::initialize returns false only when the innovation test fails, and then values, covariance and variable list are exactly as before; non-isotropic or non-diagonal noise or an already present variable terminates the process.", "quantifier": "every state and measurement", "why_tests_cant": "requires reasoning over all control paths before the commit point", "anchors": ["ov_msckf/src/state/StateHelper.cpp: StateHelper::initialize"]}
{"id": "C09", "title": "Delayed initialization yields the exact joint covariance", "statement": "When initialize_invertible adds a variable from res = H_R x + H_L f + n, the new joint covariance is that of (x, f) with f = H_L^-1 (res - H_R x - n): old blocks unchanged, cross terms -P H_R^T H_L^-T, new block H_L^-1 (H_R P H_R^T + R) H_L^-T; it stays symmetric PSD and the new variable is appended at the end.", "quantifier": "every state, order, H_R, invertible H_L, R", "why_tests_cant": "real-matrix identity over all dimensions", "anchors": ["ov_msckf/src/state/StateHelper.cpp: StateHelper::initialize_invertible"]}
{"id": "C10", "title": "State construction lays out exactly the enabled variables", "statement": "For every combination of calibration options, IMU model and number of cameras, the constructed state contains exactly the enabled variables, in order, without gaps, the covariance has the sum of their sizes, and the prior covariance is diagonal and strictly positive.", "quantifier": "every StateOptions value, every number of cameras", "why_tests_cant": "combinatorial option space with unbounded camera count", "anchors": ["ov_msckf/src/state/State.cpp: State::State"]}
{"id": "C11", "title": "Marginal covariance queries return the right sub-matrix", "statement": "get_marginal_covariance(vars) returns the matrix whose (i,j) block is the covariance block of vars i and j in the requested order, and get_full_covariance returns the whole matrix; neither changes the state.", "quantifier": "every state, every list of variables", "why_tests_cant": "all orders and repetitions", "anchors": ["ov_msckf/src/state/StateHelper.cpp: StateHelper::get_marginal_covariance, StateHelper::get_full_covariance"]}
{"id": "C12", "title": "The sliding window never exceeds its configured size", "statement": "After marginalize_old_clone the number of pose clones is at most one less than before when above max_clone_size and unchanged otherwise, the clone removed is the one with the smallest timestamp, and over any history of frames the number of clones never exceeds max_clone_size after a completed camera update.", "quantifier": "every history of camera frames, every max_clone_size >= 1", "why_tests_cant": "history dependent", "anchors": ["ov_msckf/src/state/StateHelper.cpp: StateHelper::marginalize_old_clone", "ov_msckf/src/state/State.h: State::margtimestep", "ov_msckf/src/core/VioManager.cpp: VioManager::do_feature_propagate_update"]}
{"id": "C13", "title": "Only flagged, non-ArUco landmarks are marginalized", "statement": "marginalize_slam removes exactly those landmarks flagged should_marg whose id is greater than 4*max_aruco_features; all others stay in the state with unchanged values and joint covariance.", "quantifier": "every set of landmarks", "why_tests_cant": "iteration while erasing over arbitrary landmark maps", "anchors": ["ov_msckf/src/state/StateHelper.cpp: StateHelper::marginalize_slam"]}
{"id": "C14", "title": "Nullspace projection removes the feature without biasing the measurement", "statement": "nullspace_project_inplace replaces (H_f, H_x, res) by N^T(H_x, res) where N has orthonormal columns and N^T H_f = 0; hence white measurement noise stays white with the same variance and no information about the other variables is lost.", "quantifier": "every matrix with at least as many rows as feature columns", "why_tests_cant": "real matrices of arbitrary size; numeric tests only sample", "anchors": ["ov_msckf/src/update/UpdaterHelper.cpp: UpdaterHelper::nullspace_project_inplace"]}
{"id": "C15", "title": "Measurement compression loses no information", "statement": "measurement_compress_inplace leaves H^T H and H^T res unchanged, yields at most as many rows as columns, is a no-op on already short systems, and is an orthonormal-row transform so the noise covariance stays sigma^2 I.", "quantifier": "every H and res", "why_tests_cant": "real matrices of arbitrary size", "anchors": ["ov_msckf/src/update/UpdaterHelper.cpp: UpdaterHelper::measurement_compress_inplace"]}
{"id": "C16", "title": "Stacking measurements of many features is exact", "statement": "The big Jacobian assembled in the MSCKF/SLAM updates maps any state error to the concatenation of what the per-feature Jacobians give on their own variables; no feature row is lost, duplicated or shifted to another variable's columns.", "quantifier": "every list of features with arbitrary variable orders", "why_tests_cant": "index bookkeeping over arbitrary lists of variable lists", "anchors": ["ov_msckf/src/update/UpdaterMSCKF.cpp: UpdaterMSCKF::update", "ov_msckf/src/update/UpdaterSLAM.cpp: UpdaterSLAM::update"]}
{"id": "C17", "title": "A feature's measurements are used at most once", "statement": "After an MSCKF update every feature handed in is either dropped from the list or marked for deletion, so that after the database cleanup no measurement consumed by an update can be used again; features dropped were never used.", "quantifier": "every list of features and every accept/reject outcome", "why_tests_cant": "all combinations of triangulation, gating outcomes", "anchors": ["ov_msckf/src/update/UpdaterMSCKF.cpp: UpdaterMSCKF::update", "ov_core/src/feat/FeatureDatabase.cpp: FeatureDatabase::cleanup"]}
{"id": "C18", "title": "Anchored landmarks always refer to a live clone", "statement": "If clones are only dropped after change_anchors has run for the same frame, then at all times the anchor time of every anchored landmark is one of the clone times in the window.", "quantifier": "every history of frames", "why_tests_cant": "a dangling anchor shows up only in particular histories", "anchors": ["ov_msckf/src/update/UpdaterSLAM.cpp: UpdaterSLAM::change_anchors, UpdaterSLAM::perform_anchor_change", "ov_msckf/src/state/StateHelper.cpp: StateHelper::marginalize_old_clone"]}
{"id": "C19", "title": "The feature database records every observation exactly once, in order", "statement": "update_feature(id, t, cam, uv, uvn) appends exactly one observation to that feature and camera and changes nothing else; in every reachable database timestamps, raw and normalized coordinates of each camera are parallel lists.", "quantifier": "every sequence of database calls", "why_tests_cant": "unbounded histories", "anchors": ["ov_core/src/feat/FeatureDatabase.cpp: FeatureDatabase::update_feature", "ov_core/src/feat/Feature.cpp"]}
{"id": "C20", "title": "Database queries select exactly the right features", "statement": "On databases with chronologically ordered tracks, features_not_containing_newer(t) returns exactly the features with no observation at or after t, features_containing_older(t) exactly those with an observation before t, features_containing(t) exactly those observed at t; deleted features are skipped on request and remove takes exactly the returned ones out.", "quantifier": "every database, every time, every flag", "why_tests_cant": "unbounded databases; correctness depends on a chronology invariant", "anchors": ["ov_core/src/feat/FeatureDatabase.cpp: features_not_containing_newer, features_containing_older, features_containing"]}
{"id": "C21", "title": "Cleaning the database removes exactly the requested measurements", "statement": "cleanup removes exactly the features marked for deletion; cleanup_measurements(t) removes exactly observations older than or at t and then exactly the features left empty; cleanup_measurements_exact(t) exactly those at t; clean_old/clean_invalid keep/remove exactly the listed times and keep the three lists parallel.", "quantifier": "every database and time", "why_tests_cant": "erase-while-iterating over arbitrary maps", "anchors": ["ov_core/src/feat/FeatureDatabase.cpp: cleanup, cleanup_measurements, cleanup_measurements_exact", "ov_core/src/feat/Feature.cpp: clean_old_measurements, clean_invalid_measurements, clean_older_measurements"]}
{"id": "C22", "title": "Merging databases is a union of observations", "statement": "append_new_measurements(other) never removes or changes an observation, and afterwards every (feature, camera, time) observed in either database is present; if neither database had duplicates, none are created.", "quantifier": "every pair of databases", "why_tests_cant": "unbounded; duplicate suppression is history dependent", "anchors": ["ov_core/src/feat/FeatureDatabase.cpp: append_new_measurements"]}
{"id": "C23", "title": "IMU selection covers the propagation interval exactly", "statement": "For chronologically sorted IMU data covering [t0,t1], select_imu_readings returns readings that start at t0, end at t1, are strictly increasing, lie inside the interval, are original readings or linear interpolations, and include every original reading strictly inside; so the propagated durations add up to t1-t0. If the data does not cover the interval, the result's limitations are exactly characterised.", "quantifier": "every sorted list of readings, every interval", "why_tests_cant": "many boundary cases of an index loop with interpolation at both ends", "anchors": ["ov_msckf/src/state/Propagator.cpp: Propagator::select_imu_readings"]}
{"id": "C24", "title": "IMU buffering drops only data older than requested", "statement": "Propagator::feed_imu / clean_old_imu_measurements remove exactly readings older than the given time (minus the documented 0.10 s slack), keep the rest in arrival order, and never remove data at or after the requested time, so any later propagation from that time still finds its readings.", "quantifier": "every sequence of IMU messages", "why_tests_cant": "history dependent", "anchors": ["ov_msckf/src/state/Propagator.h: Propagator::feed_imu, Propagator::clean_old_imu_measurements"]}
{"id": "C25", "title": "Interpolated readings are convex combinations", "statement": "interpolate_data(a,b,t) has timestamp t, equals a at t=a.t and b at t=b.t, and for a.t<=t<=b.t every component lies between those of a and b; equal timestamps are the only undefined case.", "quantifier": "all readings and times", "why_tests_cant": "real-valued universal statement", "anchors": ["ov_msckf/src/state/Propagator.h: Propagator::interpolate_data", "ov_init/src/utils/helper.h: InitializerHelper::interpolate_data"]}
{"id": "C26", "title": "Quaternions represent rotations faithfully", "statement": "For unit quaternions quat_2_Rot gives a proper rotation (orthonormal, determinant 1), quat_multiply corresponds to the matrix product and stays unit with non-negative scalar part, Inv gives the transpose, and q and -q give the same rotation.", "quantifier": "all unit quaternions", "why_tests_cant": "real-valued universal statements", "anchors": ["ov_core/src/utils/quat_ops.h: quat_2_Rot, quat_multiply, Inv, quatnorm, Omega"]}
{"id": "C27", "title": "Rotation matrix to quaternion round-trips", "statement": "For every rotation matrix R, rot_2_quat(R) is a unit quaternion with non-negative scalar part whose quat_2_Rot is R, in every branch; conversely rot_2_quat(quat_2_Rot(q)) is q up to sign.", "quantifier": "all rotation matrices", "why_tests_cant": "four branches with square roots; branch boundaries", "anchors": ["ov_core/src/utils/quat_ops.h: rot_2_quat"]}
{"id": "C28", "title": "so(3) exponential and logarithm are consistent", "statement": "exp_so3(w) is a rotation for every w not in the tiny-angle branch, exp of the negated vector is the transpose, log_so3(exp_so3(w)) = w for 1e-7-ish < |w| < pi, exp_so3(log_so3(R)) = R away from angle pi; what the small-angle branches do is stated exactly.", "quantifier": "all real 3-vectors / rotations", "why_tests_cant": "transcendental identities with branch conditions", "anchors": ["ov_core/src/utils/quat_ops.h: exp_so3, log_so3, skew_x, vee"]}
{"id": "C29", "title": "Rigid transforms compose and invert", "statement": "Inv_se3(T) is the two-sided inverse of every rigid transform; exp_se3 yields a rigid transform whose inverse is exp_se3 of the negated vector; hat/vee are inverse; log_se3 undoes exp_se3 outside the small-angle branch.", "quantifier": "all rigid transforms", "why_tests_cant": "real-valued universal statements", "anchors": ["ov_core/src/utils/quat_ops.h: Inv_se3, exp_se3, log_se3, hat_se3"]}
{"id": "C30", "title": "Euler angles reconstruct the rotation", "statement": "R = rot_z(yaw) rot_y(pitch) rot_x(roll) for rot2rpy(R) away from gimbal lock, and rot_x/rot_y/rot_z are rotations.", "quantifier": "all rotation matrices", "why_tests_cant": "trigonometric branches", "anchors": ["ov_core/src/utils/quat_ops.h: rot2rpy, rot_x, rot_y, rot_z"]}
{"id": "C31", "title": "Manifold updates keep orientations valid and leave first estimates alone", "statement": "update(dx) of quaternion, pose and IMU variables keeps the quaternion unit for every dx, adds the vector parts, applies each slice of dx to the right component, keeps the cached rotation equal to the quaternion's rotation, and does not touch the first-estimate; update(0) is the identity on quaternions with non-negative scalar part.", "quantifier": "all values and corrections", "why_tests_cant": "real-valued universal statement", "anchors": ["ov_core/src/types/JPLQuat.h, PoseJPL.h, IMU.h, Vec.h: update, set_value, set_fej"]}
{"id": "C32", "title": "Radial-tangential camera Jacobians are the true derivatives", "statement": "CamRadtan::compute_distort_jacobian returns the exact partial derivatives of distort_f with respect to the normalized coordinates and all eight intrinsics, everywhere.", "quantifier": "all normalized coordinates and intrinsics", "why_tests_cant": "derivative identity over the reals", "anchors": ["ov_core/src/cam/CamRadtan.h: distort_f, compute_distort_jacobian"]}
{"id": "C33", "title": "Fisheye camera Jacobians are the true derivatives away from the axis", "statement": "CamEqui::compute_distort_jacobian returns the exact partial derivatives of distort_f for radius > 1e-8; at the optical axis the returned Jacobian is not the derivative.", "quantifier": "all normalized coordinates and intrinsics", "why_tests_cant": "derivative identity with a singular point", "anchors": ["ov_core/src/cam/CamEqui.h: distort_f, compute_distort_jacobian"]}
{"id": "C34", "title": "Landmark parametrizations round-trip", "statement": "get_xyz(set_from_xyz(p)) = p for every representation on its valid domain (p_z != 0 for inverse depth, p off the origin for the full inverse depth), for the value and for the first estimate.", "quantifier": "all 3D points, all six representations", "why_tests_cant": "trigonometric identity with domain conditions", "anchors": ["ov_core/src/types/Landmark.cpp: get_xyz, set_from_xyz"]}
{"id": "C35", "title": "Feature representation Jacobians are the true derivatives", "statement": "get_feature_jacobian_representation returns the derivative of the global feature position with respect to the landmark parameters, the anchor pose error and the anchor camera extrinsics error, for every representation.", "quantifier": "all values of landmark, anchor pose, calibration", "why_tests_cant": "derivative identity over the reals", "anchors": ["ov_msckf/src/update/UpdaterHelper.cpp: get_feature_jacobian_representation"]}
{"id": "C36", "title": "Measurement Jacobians are the true derivatives", "statement": "get_feature_jacobian_full's blocks are the derivatives of the predicted pixel with respect to clone pose error, extrinsics error, intrinsics and feature position, with the residual measured minus predicted.", "quantifier": "all poses, calibrations, features in front of the camera", "why_tests_cant": "derivative identity over the reals", "anchors": ["ov_msckf/src/update/UpdaterHelper.cpp: get_feature_jacobian_full"]}
{"id": "C37", "title": "Triangulation is exact on consistent data", "statement": "If all bearings come from one 3D point seen from known poses, single_triangulation and single_triangulation_1d recover that point exactly whenever the linear system is non-singular; success implies depth within [min_dist,max_dist].", "quantifier": "all camera poses, points, numbers of views", "why_tests_cant": "unbounded number of views, real geometry", "anchors": ["ov_core/src/feat/FeatureInitializer.cpp: single_triangulation, single_triangulation_1d"]}
{"id": "C38", "title": "Feature refinement terminates and never accepts a worse fit", "statement": "single_gaussnewton terminates for every input when lam_mult > 1 and init_lamda > 0, never increases the reprojection cost, and reports success only for features within the depth limits and baseline ratio.", "quantifier": "all inputs, including adversarial cost functions", "why_tests_cant": "termination over all inputs", "anchors": ["ov_core/src/feat/FeatureInitializer.cpp: single_gaussnewton"]}
{"id": "C39", "title": "B-spline velocity and acceleration are derivatives of the pose", "statement": "The cumulative cubic basis functions used for pose, velocity and acceleration are successive time derivatives, and get_velocity / get_acceleration return the derivatives of the position returned by get_pose.", "quantifier": "all control poses and times", "why_tests_cant": "derivative identity over the reals", "anchors": ["ov_core/src/sim/BsplineSE3.cpp: get_pose, get_velocity, get_acceleration"]}
{"id": "C40", "title": "B-spline control point search brackets the query", "statement": "find_bounding_control_points succeeds iff there are enough control points around the query time, and then returns four consecutive control poses with t0 < t1 <= t < t2 < t3. feed_trajectory places its control points on the geodesic between the two file poses around each grid time.", "quantifier": "all control point sets and times", "why_tests_cant": "ordered map search with boundary cases", "anchors": ["ov_core/src/sim/BsplineSE3.cpp: find_bounding_control_points, find_bounding_poses, feed_trajectory"]}
{"id": "C41", "title": "Gravity alignment produces a proper rotation", "statement": "gram_schmidt(g) returns a proper rotation whose z column is g/|g| for every non-zero g.", "quantifier": "all non-zero vectors", "why_tests_cant": "real-valued universal statement, branch on largest component", "anchors": ["ov_init/src/utils/helper.h: gram_schmidt"]}
{"id": "C42", "title": "Static initialization is self-consistent", "statement": "When StaticInitializer succeeds, gravity rotated into the IMU frame plus the accelerometer bias equals the mean accelerometer reading, gyroscope bias equals the mean gyroscope reading, velocity and position are zero, the time is that of a buffered reading in the older half window, and success requires at least two readings in both half windows and the configured excitation pattern.", "quantifier": "every IMU buffer", "why_tests_cant": "unbounded input lists, many rejection paths", "anchors": ["ov_init/src/static/StaticInitializer.cpp: StaticInitializer::initialize"]}
{"id": "C43", "title": "The gravity-constrained least squares polynomial is correct", "statement": "The seven coefficients returned by compute_dongsi_coeff are those of det(D - l I)^2 - d^T adj(D - l I)^2 d / g^2; so every multiplier l of a minimiser of the gravity-constrained problem that is not an eigenvalue is a root, and every such root gives a vector of norm g.", "quantifier": "all D, d, g", "why_tests_cant": "polynomial identity with hundreds of terms", "anchors": ["ov_init/src/utils/helper.h: compute_dongsi_coeff"]}
{"id": "C44", "title": "Disparity statistics are well defined", "statement": "compute_disparity reports mean and sample standard deviation of the pixel displacement of features seen in both frames, and reports failure (-1) when fewer than two features match.", "quantifier": "every feature database", "why_tests_cant": "unbounded input; corner cases with no or one feature", "anchors": ["ov_core/src/feat/FeatureHelper.h: compute_disparity"]}
{"id": "C45", "title": "Feature ids are never reused", "statement": "Ids handed out by the trackers are pairwise distinct across all cameras and frames and never collide with the reserved ArUco range 0..4*numaruco. The simulated tracker stores exactly the fed observations under the simulated id plus the offset, and remembers the last list of each camera.", "quantifier": "every sequence of frames, cameras and detections", "why_tests_cant": "history dependent; atomic counter", "anchors": ["ov_core/src/track/TrackBase.cpp", "ov_core/src/track/TrackKLT.cpp", "ov_core/src/track/TrackSIM.cpp"]}
{"id": "C46", "title": "Renaming a feature id keeps its measurements", "statement": "change_feat_id(old,new) renames the track in the last-seen ids of every camera and in the database; all its measurements are kept under the new id as long as the new id was not in use.", "quantifier": "every database", "why_tests_cant": "collision cases", "anchors": ["ov_core/src/track/TrackBase.cpp: change_feat_id"]}
{"id": "C47", "title": "Existing tracks are thinned to the minimum pixel distance", "statement": "perform_detection keeps only tracked points inside the image, off the mask and no two in the same min-distance cell, and the point and id lists stay parallel.", "quantifier": "every list of points", "why_tests_cant": "unbounded lists, erase while iterating", "anchors": ["ov_core/src/track/TrackKLT.cpp: perform_detection_monocular"]}
{"id": "C48", "title": "Trajectory association is injective and within tolerance", "statement": "perform_association pairs estimates with groundtruth entries by strictly increasing groundtruth index, every pair differs by less than max_difference, and the output lists are parallel.", "quantifier": "every pair of trajectories", "why_tests_cant": "greedy two-pointer loop over arbitrary sequences", "anchors": ["ov_eval/src/alignment/AlignUtils.cpp: perform_association"]}
{"id": "C49", "title": "Summary statistics are correct and order independent", "statement": "Statistics::calculate computes min, max, median, mean, rmse and std of the values independent of their order, with min <= median <= max, min <= mean <= max and rmse^2 = mean^2 + (n-1)/n std^2, and calling it again gives the same numbers.", "quantifier": "every list of values", "why_tests_cant": "unbounded lists, repeated calls", "anchors": ["ov_eval/src/utils/Statistics.h: Statistics::calculate"]}
{"id": "C50", "title": "Yaw alignment is optimal", "statement": "With yaw_only and known scale, align_umeyama returns the yaw rotation and translation minimising the sum of squared distances between the aligned estimate and groundtruth among all yaw rotations and translations. Alignment by the first pose (posyawsingle) maps the first estimated position onto the groundtruth with the yaw rotation that brings the first orientation closest to the groundtruth one; se3single maps the whole first pose.", "quantifier": "every pair of equally long non-empty trajectories", "why_tests_cant": "optimality over a continuum", "anchors": ["ov_eval/src/alignment/AlignUtils.cpp: align_umeyama", "ov_eval/src/alignment/AlignUtils.h: get_best_yaw"]}
{"id": "C51", "title": "RPE segments are the best matching ones", "statement": "compute_comparison_indices_length returns for every start index the first end index not before it whose travelled distance is closest to the requested one among those within tolerance, or -1 iff none is within tolerance.", "quantifier": "every distance list", "why_tests_cant": "unbounded lists", "anchors": ["ov_eval/src/calc/ResultTrajectory.h: compute_comparison_indices_length"]}
{"id": "C52", "title": "The filter clock never runs backwards without zero-velocity updates", "statement": "Over any sequence of IMU and camera messages with zero-velocity updates disabled, the state time is non-decreasing, images older than the state are ignored, clones are added with strictly increasing times, and the duplicate-clone and propagate-backwards terminations are unreachable.", "quantifier": "every message history", "why_tests_cant": "history dependent", "anchors": ["ov_msckf/src/core/VioManager.cpp: track_image_and_update, do_feature_propagate_update", "ov_msckf/src/state/Propagator.cpp: propagate_and_clone"]}
{"id": "C53", "title": "A rejected zero-velocity update leaves the filter untouched", "statement": "UpdaterZeroVelocity::try_update returns false without changing value, covariance or time of the state; when it returns true the state time becomes the requested one.", "quantifier": "every state and measurement history", "why_tests_cant": "many exit paths", "anchors": ["ov_msckf/src/update/UpdaterZeroVelocity.cpp: try_update"]}
{"id": "C54", "title": "Simulated measurements are emitted in time order and never stall", "statement": "Alternately polling get_next_imu and get_next_cam always makes progress while the simulation runs and emits measurements with non-decreasing true time.", "quantifier": "every pair of rates, every number of polls", "why_tests_cant": "unbounded runs", "anchors": ["ov_msckf/src/sim/Simulator.cpp: get_next_imu, get_next_cam"]}
{"id": "C55", "title": "The estimator's IMU model inverts the simulator's", "statement": "For noise-free readings produced by the simulator's intrinsic model, the propagator's bias/intrinsic correction recovers the true angular velocity and acceleration exactly for both IMU models.", "quantifier": "all intrinsics with invertible scale matrices, all motions", "why_tests_cant": "real-matrix identity", "anchors": ["ov_msckf/src/sim/Simulator.cpp: get_next_imu", "ov_msckf/src/state/Propagator.cpp: predict_and_compute", "ov_msckf/src/state/State.h: Dm, Tg"]}
{"id": "C56", "title": "IMU intrinsic Jacobians are the true derivatives", "statement": "compute_H_Dw, compute_H_Da and compute_H_Tg return the derivative of Dm(x)*w (resp. Da, Tg) with respect to the parameter vector for both IMU models.", "quantifier": "all parameters and readings", "why_tests_cant": "linear identity over both layouts", "anchors": ["ov_msckf/src/state/Propagator.cpp: compute_H_Dw, compute_H_Da, compute_H_Tg", "ov_msckf/src/state/State.h: Dm, Tg"]}
{"id": "C57", "title": "Images wait for inertial data and are delivered in order", "statement": "The ROS front end hands an image to the estimator only when an IMU message newer than it (in the camera clock) has arrived, delivers each accepted image once, and for a single image stream with increasing stamps delivers them in increasing time order; the rate limiter passes images at least 1/track_frequency apart.", "quantifier": "every interleaving of IMU and image messages", "why_tests_cant": "interleavings", "anchors": ["ov_msckf/src/ros/ROS1Visualizer.cpp: callback_inertial, callback_monocular, callback_stereo"]}
{"id": "C58", "title": "Fast propagation queries do not disturb the filter", "statement": "fast_state_propagate never changes the filter state, and its cached result equals propagating from the cached state.", "quantifier": "every sequence of queries", "why_tests_cant": "history dependent cache", "anchors": ["ov_msckf/src/state/Propagator.cpp: fast_state_propagate"]}
{"id": "C59", "title": "Discrete propagation Jacobian is the derivative of the mean propagation", "statement": "compute_F_and_G_discrete's state transition is the first-order derivative of predict_mean_discrete with respect to the error state.", "quantifier": "all states and readings", "why_tests_cant": "derivative identity over the reals", "anchors": ["ov_msckf/src/state/Propagator.cpp: predict_mean_discrete, compute_F_and_G_discrete"]}
{"id": "C60", "title": "Re-anchoring a landmark keeps its global position", "statement": "perform_anchor_change leaves the landmark's global position unchanged (value and first estimate) and transforms the covariance by the corresponding linear map.", "quantifier": "all anchors and representations", "why_tests_cant": "real-valued universal statement", "anchors": ["ov_msckf/src/update/UpdaterSLAM.cpp: perform_anchor_change"]}
{"id": "C61", "title": "SLAM and ArUco feature listings partition the map", "statement": "get_features_SLAM and get_features_ARUCO together list every landmark exactly once, in global coordinates.", "quantifier": "every landmark map", "why_tests_cant": "unbounded maps", "anchors": ["ov_msckf/src/core/VioManagerHelper.cpp: get_features_SLAM, get_features_ARUCO"]}
{"id": "C62", "title": "Default IMU intrinsics are the identity calibration", "statement": "The State constructor's default gyroscope and accelerometer intrinsic vectors describe the identity scale/misalignment matrix for every IMU intrinsic model the options allow.", "quantifier": "every intrinsic model option", "why_tests_cant": "tests use the default model only; the other model is never constructed with defaults", "anchors": ["ov_msckf/src/state/State.cpp:43-60", "ov_msckf/src/state/State.h: Dm"]}
{"id": "C63", "title": "Database lookups return the feature and the oldest time", "statement": "get_oldest_timestamp returns the smallest measurement time stored (or -1 when there is none); get_feature returns the stored feature and with remove deletes exactly it; get_feature_clone copies it without changing the database.", "quantifier": "every database of tracks in time order", "why_tests_cant": "unbounded databases", "anchors": ["ov_core/src/feat/FeatureDatabase.cpp: get_oldest_timestamp, get_feature, get_feature_clone"]}
{"id": "C66", "title": "Full trajectory alignment is optimal", "statement": "With a correct singular value decomposition, align_umeyama returns a proper rotation and translation (and, if the scale is free, a non-negative scale) minimising the sum of squared distances between the aligned estimate and groundtruth among all rotations, translations and non-negative scales.", "quantifier": "every pair of equally long non-empty trajectories", "why_tests_cant": "optimality over a continuum, reflection case", "anchors": ["ov_eval/src/alignment/AlignUtils.cpp: align_umeyama"]}
{"id": "C67", "title": "Evaluation errors are computed from consistently aligned, index-aligned poses", "statement": "ResultTrajectory either terminates or holds parallel lists of at least three poses whose aligned versions are the estimate moved by the alignment (position and orientation by the same transform); ATE and RPE never index out of range, use exactly the segments of C51, and the RPE of an estimate that is a rigid motion of the groundtruth is zero and its position part does not depend on the frame of the estimate. The reported orientation errors are the angles between, and the position errors the distances of, the poses compared, and the statistics are those of exactly these values.", "quantifier": "every pair of loaded trajectories, every alignment method and segment length", "why_tests_cant": "unbounded lists, real-valued identities", "anchors": ["ov_eval/src/calc/ResultTrajectory.cpp: ResultTrajectory, calculate_ate, calculate_rpe"]}
{"id": "C68", "title": "Every tracked point is recorded exactly once per frame", "statement": "After a frame each point in a camera's list has exactly one new observation in the database (this frame's time, its pixel and undistorted position), all other tracks are unchanged, and a monocular frame keeps exactly the successfully matched points that lie inside the image and off the mask.", "quantifier": "every reachable tracker state, image, detector and optical-flow answer", "why_tests_cant": "the lists shrink and grow over unbounded runs; OpenCV answers are arbitrary", "anchors": ["ov_core/src/track/TrackKLT.cpp: feed_monocular, feed_stereo"]}
{"id": "C69", "title": "Analytic mean propagation is the exact solution", "statement": "For constant angular velocity above the small-rate switch and constant specific force, predict_mean_analytic with compute_Xi_sum returns the orientation, velocity and position of the exact strap-down kinematics after the interval.", "quantifier": "all states, rates above half a degree per second, forces, interval lengths", "why_tests_cant": "exactness of a closed-form ODE solution over the reals", "anchors": ["ov_msckf/src/state/Propagator.cpp: compute_Xi_sum, predict_mean_analytic"]}
{"id": "C70", "title": "Analytic propagation Jacobians are the derivatives of the analytic mean", "statement": "compute_F_and_G_analytic's F and G are the first-order derivatives of predict_mean_analytic with respect to the error state (including all calibrated IMU intrinsics) and to the reading noise.", "quantifier": "all states, readings, calibration options", "why_tests_cant": "derivative identity over the reals with 39 error components", "anchors": ["ov_msckf/src/state/Propagator.cpp: compute_F_and_G_analytic, compute_Xi_sum, predict_mean_analytic"]}
{"id": "C71", "title": "Summed propagation equals step-by-step propagation", "statement": "The summed Phi and Q of propagate_and_clone give, for every covariance, the same result as applying each interval's F P F^T + Qd in turn; Q is symmetric positive semidefinite; the symmetrisation steps change nothing. The state itself is carried from reading to reading by the integration method, its first estimates are reset to the new values, biases and calibration stay.", "quantifier": "all reading sequences with increasing times, all integration methods, all covariances", "why_tests_cant": "induction over the number of readings", "anchors": ["ov_msckf/src/state/Propagator.cpp: propagate_and_clone, predict_and_compute"]}
{"id": "C72", "title": "RK4 mean propagation is the classical Runge-Kutta step, exact without rotation", "statement": "predict_mean_rk4 is one step of the classical fourth-order Runge-Kutta method (quaternion part projected to unit length at every stage) on the strap-down equations with readings linear in time; with zero angular velocity at both readings it leaves the orientation unchanged and returns the exact velocity and position.", "quantifier": "all states, forces, interval lengths", "why_tests_cant": "exactness over the reals", "anchors": ["ov_msckf/src/state/Propagator.cpp: predict_mean_rk4"]}
{"id": "C73", "title": "Simulated ground truth matches the readings and camera frames are handed over with inertial data", "statement": "get_state at the time of any emitted IMU reading returns exactly the bias that reading was generated with and is defined for all times up to the last reading; the driver loop hands every frame but the last to the estimator once, in order, and only after an IMU reading at or after its true time.", "quantifier": "all rates (fc <= fi for the hand-over), all noise draws, all numbers of passes", "why_tests_cant": "unbounded runs and arbitrary rate ratios", "anchors": ["ov_msckf/src/sim/Simulator.cpp: get_state, get_next_imu", "ov_msckf/src/run_simulation.cpp: main loop"]}
{"id": "C74", "title": "Simulated pixels are true projections with unambiguous ids", "statement": "Every simulated pixel is the distorted projection of a map point inside the image plus its noise, at most num_pts per camera; without stereo the ids of different cameras never coincide; generated points get consecutive ids and are seen at the pixel they were drawn for.", "quantifier": "all maps, poses, cameras, draws", "why_tests_cant": "unbounded maps, real geometry", "anchors": ["ov_msckf/src/sim/Simulator.cpp: get_next_cam, project_pointcloud, generate_points"]}
{"id": "C75", "title": "Global frame motion is unobservable through camera measurements", "statement": "For every feature representation and both Jacobian modes, rotating the whole scene about the global origin and translating it leaves [H_f H_x] unchanged: the stacked error of the clones and the landmark under such a motion, built from the evaluation points, is in the null space of the measurement Jacobian. In first-estimate mode this direction does not depend on the current pose estimates; without first estimates it does.", "quantifier": "all states, features with any number of measurements, cameras and clones, all rotation axes and translations", "why_tests_cant": "identity over the reals for every state; observability is a structural property no finite set of runs shows", "anchors": ["ov_msckf/src/update/UpdaterHelper.cpp: get_feature_jacobian_representation, get_feature_jacobian_full"]}
{"id": "C76", "title": "Filter clock with zero-velocity updates", "statement": "While the images handed to VioManager are never older than the filter state, every image is processed without leaving the process and without a failed assertion, whether or not zero-velocity updates are tried and accepted: afterwards the state time is the image time, clone times are strictly increasing and not later than the state time, the window does not exceed max_clones, and an accepted zero-velocity update adds or removes no clone.", "quantifier": "all reachable filter states, all sequences of images with non-decreasing times, all IMU readings in time order, all feature databases, all propagation results and update operations", "why_tests_cant": "The interplay of the two paths (reuse of the previous decision, early returns, time offset of the last propagation) depends on the whole history; tests run a handful of recorded sequences.", "anchors": ["ov_msckf/src/core/VioManager.cpp:288-360", "ov_msckf/src/update/UpdaterZeroVelocity.cpp:65-329"]}
{"id": "C64", "title": "No measurement is used twice over a run", "statement": "Over any sequence of camera messages processed by VioManager once initialized, the measurements (feature, camera, time) that enter the MSCKF updates, the SLAM updates and the delayed initializations are pairwise distinct, and each of them came with a message or was in the feature database at the beginning; zero-velocity updates, early returns, truncation to max_msckf_in_update, promotion to landmarks, batches of SLAM updates and database cleaning included.", "quantifier": "all managers satisfying a stated start condition, all sequences of messages in time order (strictly increasing per camera), all triangulation and linearization results, all options, all zero-velocity decisions", "why_tests_cant": "Double use makes the estimate inconsistent without any visible failure; it would need a rare combination of lost track, landmark, marginalization and batch.", "anchors": ["ov_msckf/src/core/VioManager.cpp:280-321", "ov_msckf/src/core/VioManager.cpp:361-596", "ov_msckf/src/update/UpdaterMSCKF.cpp:56-120", "ov_msckf/src/update/UpdaterSLAM.cpp:58-480", "ov_core/src/feat/FeatureDatabase.cpp:59-300"]}
{"id": "C77", "title": "Landmark budget", "statement": "Over any sequence of camera messages the number of SLAM landmarks that are not tags never exceeds max_slam_features once it does not at the beginning, and the number of all landmarks never exceeds max_slam_features + 4*max_aruco_features + 1, including landmarks that are marginalized and initialized again in the same frame.", "quantifier": "all managers satisfying the start condition of C64, all sequences of messages in time order, all tracker results, all options", "why_tests_cant": "The bound is the outcome of three interacting steps (promotion count computed before marginalization, re-initialization of landmarks that failed, tags exempt from marginalization) and decides the size of the covariance.", "anchors": ["ov_msckf/src/core/VioManager.cpp:429-491", "ov_msckf/src/state/StateHelper.cpp:631-645", "ov_msckf/src/update/UpdaterSLAM.cpp:58-230"]}
{"id": "C79", "title": "Which tracks a message's update takes", "statement": "In every message that reaches the update, the ordinary tracks that ended or are seen from the clone about to leave the window are divided into those handed to the MSCKF update, those promoted to landmarks and those cut off: each exactly once; the quota max_msckf_in_update is used up before any is cut and goes to the tracks with most measurements; tracks longer than the window are promoted exactly as long as there is room for landmarks; everything taken is gone from the database afterwards, nothing else is used, and a track not taken keeps every measurement newer than the clone that leaves. An image older than the state only adds its measurements to the database: state, failed flags and tracks already there are unchanged.", "quantifier": "all managers satisfying the start condition of C64, all messages, all tracker results, all options, all orderings by a sort", "why_tests_cant": "A track silently lost between the selection steps (lost, marginalized, max-tracks, slam) only lowers accuracy; no run fails.", "anchors": ["ov_msckf/src/core/VioManager.cpp:361-596", "ov_msckf/src/update/UpdaterSLAM.cpp:58-480", "ov_core/src/feat/FeatureDatabase.cpp:59-300"]}
{"id": "C80", "title": "The fate of the landmarks", "statement": "In every message that reaches the update a landmark stays unless it is not a tag corner and is flagged, its track is gone while its camera belongs to the message, or its update failed at least twice before; the failure count of a landmark grows by one exactly when it stays, is not a tag, was seen from the window and was not used, and is zero for new landmarks; every new landmark was initialized from its own track. A success does not reset the count: failures accumulate, they need not be in a row.", "quantifier": "all managers satisfying the start condition of C64, all messages, all update outcomes, all options", "why_tests_cant": "Which landmarks survive depends on combinations of track loss, gating and camera membership that no data set enumerates; the missing reset contradicts the code's own comment and is visible only over long runs.", "anchors": ["ov_msckf/src/core/VioManager.cpp:361-596", "ov_msckf/src/update/UpdaterSLAM.cpp:58-480", "ov_core/src/feat/FeatureDatabase.cpp:59-300", "ov_msckf/src/state/StateHelper.cpp:631-645"]}
{"id": "C78", "title": "Noise and gate of delayed initialization; tag corners", "statement": "UpdaterSLAM::delayed_init calls StateHelper::initialize for exactly the tracks with at least two measurements at clone times whose triangulation succeeded, in the order handed in, each linearized at the state its predecessors left, with the measurement noise and the chi-squared multiplier that belong to its id, and records a landmark exactly when initialize accepts it. Every corner of a detected tag gets the noise and the multiplier of tags.", "quantifier": "all states, databases, tracks, triangulation and linearization results, options, tag ids and corners", "why_tests_cant": "A wrong noise shows only as slightly inconsistent estimates; tags are not in the standard data sets.", "anchors": ["ov_msckf/src/update/UpdaterSLAM.cpp:61-245", "ov_msckf/src/update/UpdaterSLAM.cpp:393-423", "ov_core/src/track/TrackAruco.cpp:128-150"]}
{"id": "C65", "title": "Which initializer runs", "statement": "InertialInitializer::initialize does nothing until the newest tracked image is a full window (plus 0.1 s) after time zero. Then it cuts the feature database and the IMU buffer to the window, judges motion in the two halves of the window by the mean image displacement of the tracks (at least 15 in each half, otherwise it gives up for now), runs the static initializer exactly when (a) there was rest and then motion and a jerk is waited for, or (b) there was only rest and no jerk is waited for, and the static threshold is positive; in the remaining cases it runs the dynamic initializer exactly when that is enabled and there was motion. The dispatch itself never fails. With a disparity threshold of zero or below and wait_for_jerk it never starts any initializer, against the comment in the code.", "quantifier": "all feature databases with chronological tracks, IMU buffers, options and both settings of wait_for_jerk", "why_tests_cant": "the decision depends on real-valued displacements over arbitrary tracks and the interaction of four options; tests fix one data set and one configuration", "anchors": ["ov_init/src/init/InertialInitializer.cpp:79-159", "ov_core/src/feat/FeatureHelper.h:127-177"]}
{"id": "C81", "title": "Images that arrive while the initializer runs", "statement": "When the initialization thread succeeds, VioManager moves the new state over the queued camera times that are newer than it: it makes clones at every k-th of them, starting with the first, never more than max_clone_size and at all of them if fewer than that are queued, without ever exiting, and the result is a state of the normal filter. For every interleaving of the main thread and the initialization thread with increasing camera times, try_to_initialize answers true exactly when the thread has succeeded and stopped, the program does not exit, and all clones are at times of images received before. A queued camera time that is not newer than the one before ends the program.", "quantifier": "all queues, windows sizes >= 1, initializer results, propagation inputs and all finite interleavings of messages and thread steps", "why_tests_cant": "tests run a single schedule; the claim quantifies over all interleavings of two threads and all queue contents", "anchors": ["ov_msckf/src/core/VioManagerHelper.cpp:78-188", "ov_msckf/src/state/Propagator.cpp:33-60"]}
{"id": "C82", "title": "Preintegration holds the exact relative motion", "statement": "After feeding any sequence of inertial readings to the continuous preintegrator (version 1), the accumulated time is the sum of the intervals, and the relative rotation, velocity change and position change it stores are exactly those of a rigid body that obeys the strap-down equations with the bias-corrected readings held over each interval: R_y = R R_x, v_y = v_x - T g + R_x^T beta, p_y = p_x + T v_x - T^2/2 g + R_x^T alpha, for every start, gravity, bias and choice of averaging; the stored quaternion represents the stored rotation. It holds when every bias-corrected rate is zero or at least 0.008726646 rad/s; below that the stored matrix is not a rotation.", "quantifier": "all sequences of readings, all biases, starting bodies, gravity vectors", "why_tests_cant": "the closed-form integrals have four rotation-dependent coefficients with a small-angle switch; a wrong coefficient shows as a small drift that no single run separates from noise", "anchors": ["ov_core/src/cpi/CpiV1.cpp:33-139", "ov_core/src/cpi/CpiBase.h:49-141"]}
{"id": "C83", "title": "Preintegration bias Jacobians are the derivatives of the preintegrated motion", "statement": "After any sequence of readings (rates zero or above the small-angle threshold) the stored J_q, J_a, J_b, H_a, H_b are the exact derivatives of the stored rotation, position change and velocity change with respect to the two biases: along any direction (e, f) of bias change, dR = [J_q e] R, d alpha = J_a e + H_a f, d beta = J_b e + H_b f.", "quantifier": "all sequences of readings, all biases, all directions of bias change", "why_tests_cant": "the Jacobians are recursive over the readings with four hand-derived coefficient derivatives; a finite-difference test checks one trajectory up to rounding", "anchors": ["ov_core/src/cpi/CpiV1.cpp:140-238"]}
{"id": "C84", "title": "Poses, equations and definedness of the dynamic initializer", "statement": "When the dynamic initializer produces a guess, its poses are at strictly increasing times at which features were measured, all within init_window_time before the newest measurement, which is one of them; any two are at least window/(num_pose+1) apart; there are init_dyn_num_pose or one more of them. The number of rows counted before the linear system is allocated equals the number of rows written into it. Up to the guess it runs without an out-of-range access, failed assert or division by zero whenever every measured camera has extrinsics and at least three inertial readings lie between any measured time and the newest; with only two readings an assert fails. A guess is given only if the bias-corrected angular rate could have turned the device by init_dyn_min_deg within the window: if all corrected rates are at most W, then min_deg is at most W times the window, in degrees; for a constant rate the angle it is judged by is the corrected rate times the time covered by the readings.", "quantifier": "all feature databases, inertial buffers, options, oracles of the linear algebra library", "why_tests_cant": "rows are counted in one loop and filled in another, with pose selection depending on the order of features and cameras; a mismatch writes out of bounds only for particular track patterns", "anchors": ["ov_init/src/dynamic/DynamicInitializer.cpp:44-400"]}
{"id": "C85", "title": "The true motion solves the linear system of the dynamic initializer", "statement": "If a body moves by the strap-down equations with the (bias-corrected) readings that were preintegrated, and every measurement used is the exact projection of a fixed point through the camera extrinsics, then the vector of the points in the first body frame, the first velocity in that frame and gravity in that frame satisfies every row of the system A x = b that is built.", "quantifier": "all databases, tracks, readings, bodies, gravities, points, calibrations", "why_tests_cant": "signs of the velocity and gravity columns and of the camera offset cancel on special trajectories; a test sees one trajectory with noise", "anchors": ["ov_init/src/dynamic/DynamicInitializer.cpp:200-385"]}
{"id": "C86", "title": "What the constrained solve returns", "statement": "When the solve succeeds, feature and velocity part satisfy the normal equations for the gravity found, gravity has the given length to 1e-3, and it is (D - lambda I)^-1 d for a real eigenvalue lambda of the companion matrix of the degree-6 polynomial. If D - lambda I is positive definite, gravity has exactly the given length and the result is a global minimum of the squared residual under that constraint. If the companion matrix has full rank and such an eigenvalue exists, the solve succeeds. If the equations hold exactly for a gravity of the right length (in particular for noise-free data, C85), the companion matrix is singular and the solve gives up.", "quantifier": "all linear systems, gravity lengths, oracles meeting the contracts of llt inverse, eigenvalues and rank", "why_tests_cant": "global optimality over a sphere and the degenerate case of an exact system cannot be observed from a run: rounding hides the singular case and only one local minimum is seen", "anchors": ["ov_init/src/dynamic/DynamicInitializer.cpp:388-470", "ov_init/src/utils/helper.h:183-320"]}
{"id": "C87", "title": "The guess of the dynamic initializer is one motion of the body", "statement": "The poses and velocities returned are those of one rigid body that starts at the origin at the first pose, obeys the strap-down equations with the selected readings in a frame whose z axis is opposite to gravity, with gravity length within 1e-3 of the option; the quaternions are of unit length; at least eight features are returned, each from the database and not behind any calibrated camera that saw it at the first pose.", "quantifier": "all databases, buffers, options, linear algebra oracles (even wrong ones)", "why_tests_cant": "the recovered states pass through three frame changes; a wrong transpose still gives plausible poses on symmetric data", "anchors": ["ov_init/src/dynamic/DynamicInitializer.cpp:440-570"]}
{"id": "C88", "title": "Moving a quaternion in the least-squares problem", "statement": "Plus returns a unit quaternion with nonnegative scalar part whose rotation is the old one turned by exactly the rotation vector (by its Cayley map when shorter than 1e-8); its derivative at zero is the left error. Minus undoes Plus for less than half a turn, and Plus undoes Minus, except that differences below 1e-8 are lost (refuted). PlusJacobian is not the derivative of the four quaternion values (refuted): it is the projection that the terms of C89 to C91 rely on.", "quantifier": "all unit quaternions and rotation vectors", "why_tests_cant": "the round trip and the derivative hold on a continuum with a branch at 1e-8 and a sign choice; samples hit neither", "anchors": ["ov_init/src/ceres/State_JPLQuatLocal.cpp:26-98"]}
{"id": "C89", "title": "Image term of the least-squares problem", "statement": "The residual is gate/sigma times the difference between the pixel of the feature seen from the calibrated camera and the measured pixel, and what Ceres forms from the six stored Jacobians is its derivative along every joint move of pose, feature, extrinsics and intrinsics, wherever the camera model is differentiable.", "quantifier": "all poses, features, calibrations, both camera models, gates, all joint directions", "why_tests_cant": "a wrong sign or transpose in one Jacobian block only slows convergence", "anchors": ["ov_init/src/ceres/Factor_ImageReprojCalib.cpp:26-151"]}
{"id": "C90", "title": "IMU term of the least-squares problem", "statement": "The residual is zero exactly when the second state is the first moved by the bias-corrected preintegrated measurement; its square is the raw residual in the metric of the inverse covariance; it is zero for two states of a body that follows the readings, and zero to first order when the biases differ from those integrated at. What Ceres forms from the ten stored Jacobians is the derivative along every joint move of the two states, if the gyroscope bias is at the linearization point (or fixed) and both turns are below a quarter turn. Without the first condition it is not (refuted), beyond the second it can be minus the derivative (refuted).", "quantifier": "all preintegrations, pairs of states, joint directions, reading lists", "why_tests_cant": "150 Jacobian entries over a continuum; the sign fault needs turns between images that data sets do not contain", "anchors": ["ov_init/src/ceres/Factor_ImuCPIv1.cpp:26-264", "ov_init/src/dynamic/DynamicInitializer.cpp:744-745"]}
{"id": "C91", "title": "Prior term of the least-squares problem", "statement": "The constructor exits for unknown types and failed factorizations and asserts the sizes. The residual is the square root information times the difference of every block to the linearization point (rotation vector on the global side, its z part for yaw) plus a constant; what Ceres forms from the stored Jacobians is its derivative along every joint move; without a gradient the cost is the difference in the metric of the information. The constant meets sqrtI b = gradient, not sqrtI^T b = gradient as documented (refuted).", "quantifier": "all lists of blocks, linearization points, information matrices, joint directions", "why_tests_cant": "the shipped code only passes a zero gradient and one layout of blocks; the rest is never run", "anchors": ["ov_init/src/ceres/Factor_GenericPrior.cpp:28-176", "ov_init/src/ceres/Factor_GenericPrior.h:30-60"]}
{"id": "C92", "title": "Least-squares problem of the dynamic initializer", "statement": "For every guess the dynamic initializer produces, the problem given to Ceres is built without undefined behaviour when Eigen can factor the priors and the preintegrated covariances, and has: one state per pose, starting from the guess, in time order; one prior on the first state; between consecutive states one IMU term with exactly the readings between their times; one prior per camera on extrinsics and intrinsics; and exactly one image term per observation at a pose time of a feature the guess has, addressing the blocks of that feature, camera and time. Its cost is defined and not negative for all values whose orientations are unit quaternions, and zero exactly where all measurements fit: the first state differs from the guess only by a turn with no component about the vertical and by velocity, consecutive states follow the preintegrated readings, the calibration is the configured one and every observed pixel is the predicted one. Hence the true values are a global minimum when the data are exact.", "quantifier": "all feature databases, IMU buffers, options, guesses, linear algebra oracles and values of all parameter blocks", "why_tests_cant": "Which blocks each residual addresses is spread over six maps and four loops; a wrong index still optimizes to something plausible on one dataset, and the zero set of the whole cost is a statement about all values.", "anchors": ["ov_init/src/dynamic/DynamicInitializer.cpp:571-891", "ov_init/src/ceres/Factor_GenericPrior.cpp:28-164", "ov_init/src/ceres/Factor_ImuCPIv1.cpp:26-136", "ov_init/src/ceres/Factor_ImageReprojCalib.cpp:48-103"]}
{"id": "C93", "title": "State and covariance handed over by the dynamic initializer", "statement": "After the optimization the function returns whenever every state has a value. On success the IMU state is the optimized state of the newest image with its position set to zero, the clones and features are the optimized ones, and the covariance is the 15x15 marginal Ceres computed with the diagonal blocks of orientation, velocity and biases multiplied by their inflation factors; it is symmetric positive semi-definite when the marginal is and the factors are at least one. If the solver does not converge nothing is changed.", "quantifier": "all problems, optimized values, covariance blocks, inflation factors and previous states", "why_tests_cant": "The blocks are copied by 25 hand-written index pairs and positive semi-definiteness is over all vectors.", "anchors": ["ov_init/src/dynamic/DynamicInitializer.cpp:893-1110"]}
{"id": "C94", "title": "Incremental triangulation of the active tracks", "statement": "Over any sequence of calls, the linear system kept for a feature is the sum of the projections across the viewing rays of the observations kept since its last gap, one per message, and a feature not seen in the newest message has none. With at most one observation per message these are all observations since the gap; with two cameras seeing the same feature they are not (refuted). A position that is given out is the one point closest to the viewing lines of at least four kept observations, lies within the depth limits of a camera seeing it now, equals the true point when the observations are exact, and is given out whenever the last camera's checks pass.", "quantifier": "all sequences of messages, poses, calibrations, tracker frames, landmarks, options and linear solvers meeting their contract", "why_tests_cant": "The system is accumulated over an unbounded number of calls and cameras; a lost or doubled observation changes the result only slightly.", "anchors": ["ov_msckf/src/core/VioManagerHelper.cpp:190-320"]}
{"id": "C95", "title": "Published landmarks and pixels with depth", "statement": "A landmark of the state is given out at its own global position, whichever representation it has. A feature has a pixel with depth exactly if it has a position, camera 0 sees it in the newest message inside of the image, and its position lies at least 0.1 in front of that camera; pixel and depth are the observed and predicted ones. No lookup fails when the clone of the message, the calibrations and the anchors exist.", "quantifier": "all messages, states, tracker frames and previous systems", "why_tests_cant": "Which of several maps a missing key aborts depends on the combination of cameras, anchors and ids.", "anchors": ["ov_msckf/src/core/VioManagerHelper.cpp:320-387"]}
{"id": "C96", "title": "Start from a known state", "statement": "Started with a known IMU state of unit orientation, a state whose IMU block is not correlated with the rest (as constructed) gets exactly this value and linearization point, time and the stated standard deviations on the IMU block with zero correlation inside of it, keeps every other variable and covariance entry, clears all measurements not newer than the start from the database, and the filter's invariants, the positive semi-definite covariance among them, still hold.", "quantifier": "all reachable states with uncorrelated IMU block, databases, times and IMU values", "why_tests_cant": "Positive semi-definiteness and absence of correlation are statements over all vectors and indices.", "anchors": ["ov_msckf/src/core/VioManagerHelper.cpp:40-62"]}
{"id": "C97", "title": "Corner extraction cell by cell", "statement": "For positive parameters the grid that is used is the given one if there is a feature for every cell, otherwise the smallest one of the same ratio with a cell for every feature; it is never larger than the given one. Every valid cell that fits into the image contributes at most its share of corners, all inside of the cell and not masked; a corner of it is left out only if it is masked or its share of other corners are at least as strong; other cells contribute nothing. The call never fails an assertion, reads outside of the mask or leaves a list, and keeps the order through the refinement. That a cell with a corner that is not masked contributes one is refuted.", "quantifier": "all image sizes, masks, grids, feature counts, lists of cells, corner detectors and sorts meeting their contract", "why_tests_cant": "Rounding of the grid, integer division of the cells and the order of strength check, cut-off and mask interact; the effects show only for particular sizes.", "anchors": ["ov_core/src/track/Grider_GRID.h:74-178"]}
{"id": "C98", "title": "Where the tracker looks for new points", "statement": "The cells searched are exactly those of the grid with fewer points than half their share (at least one) and not masked out. If there is a feature for every cell and the cells divide the image, every corner found lies in such a cell, is not masked and not within the minimum distance of a kept point whose square is inside of the image, and every corner of such a cell is found unless one of these or its share of stronger corners prevents it. With fewer features than cells the cells are chosen in one grid and searched in another, so free cells are missed (refuted); if the cells do not divide the image its right and lower rest is never searched; with no features wanted the call divides by zero (refuted).", "quantifier": "all options, images, masks, kept points, corner detectors and sorts meeting their contract", "why_tests_cant": "The grid mismatch needs few features relative to the grid, which no shipped configuration has; the cells are reals in one place and integers in the other.", "anchors": ["ov_core/src/track/TrackKLT.cpp:402-494", "ov_core/src/track/Grider_GRID.h:86-119"]}
{"id": "C99", "title": "Descriptor based tracking", "statement": "Matches between two images are one to one: exactly the pairs that are each other's nearest descriptor, pass the ratio test in both directions and are approved by RANSAC, and none if fewer than ten pairs agree. Over all runs every camera has as many ids as points, all different, above the ids of the tags and at most the counter, and cameras never sent together as a stereo pair share no id. After an image of one camera the points are its detections, at most one per cell and inside of the image; a point has the id of the point it is matched with, a point without match a fresh id, and each is recorded once under its id. After a stereo pair both cameras have the same ids, a pair keeps an id only if both sides are matched to points that had it, and both pixels are recorded. Monocular images never fail; stereo pairs fail exactly if both cameras have points but unequally many, which cannot happen after a pair. Refuted: that the latter holds with single images in between, that stereo detection keeps points apart, that every matched pair inside of its images is tracked, and that the points of the first image are recorded.", "quantifier": "all runs, options, images, descriptors, and answers of the matcher and of RANSAC meeting their contract", "why_tests_cant": "Which points match is decided by image content; repeated ids or a mixed mono/stereo stream show only for particular sequences, and the missing grid marks only as crowded points.", "anchors": ["ov_core/src/track/TrackDescriptor.cpp:33-575"]}
{"id": "C100", "title": "When the simulation starts", "statement": "For every trajectory of at least two lines the simulation starts, all clocks equal and the bias history zero, at the first camera tick by which the distance travelled along the camera ticks exceeds the threshold; if there is none inside the spline, or no start time, the program exits; otherwise, given a calibration for each camera, the constructor always ends regularly.", "quantifier": "all trajectories, thresholds, rates, options and random values", "why_tests_cant": "The result depends on where along an arbitrary curve an accumulated length crosses a threshold; recorded trajectories exercise one crossing each.", "anchors": ["ov_msckf/src/sim/Simulator.cpp:36-124"]}
{"id": "C101", "title": "Every synthetic frame sees enough of the map", "statement": "After the map is generated every camera sees at least num_pts map points from each synthetic pose (every quarter second). Every map point was made because a camera saw too few at such a pose, and lies there on the ray of its pixel at its drawn depth. Ids are consecutive, and with more cameras the map is only extended at its end. Refuted: that camera frames between the synthetic poses see num_pts points, and (contrary to a comment in the code) that the first camera's measurements are the same when a camera is added.", "quantifier": "all trajectories, camera calibrations, draws, numbers of cameras and points", "why_tests_cant": "Visibility of a random map from all poses of all trajectories; a point that falls outside of the image or the depth range shows only for unlucky draws.", "anchors": ["ov_msckf/src/sim/Simulator.cpp:155-207", "ov_msckf/src/sim/Simulator.cpp:452-560"]}
{"id": "C102", "title": "Perturbation leaves the truth alone", "statement": "The simulator projects with the calibration it was given, held in camera objects that none of the caller's options point to, whether or not the caller's options are perturbed. Perturbation adds to each calibration value of the caller the stated multiple of a normal value used for no other parameter, turns the orientations by small rotations, and changes nothing else; without it the caller's options stay as they are. Refuted: that measurement noise differs between cameras: all camera generators have the same seed, so two cameras have identical noise sequences.", "quantifier": "all options, camera objects and random values", "why_tests_cant": "Aliasing of a shared pointer gives plausible but optimistic simulation results; equal noise on two cameras is invisible unless one looks for it.", "anchors": ["ov_msckf/src/sim/Simulator.cpp:44-61", "ov_msckf/src/sim/Simulator.cpp:126-157", "ov_msckf/src/sim/Simulator.cpp:209-265"]}
{"id": "C103", "title": "Covariance of the preintegrated measurement", "statement": "The covariance kept beside the preintegrated measurement is symmetric after any readings, and its bias part is exactly that of two independent random walks over the elapsed time. One step agrees, to second order in its duration, with the covariance of the linearized errors of the preintegrated state (whose rates are uniquely determined by the motion), and to fourth order when the body does not turn. Refuted: that it stays positive semidefinite, as a comment in the code says.", "quantifier": "all readings, noises, biases, rates, forces and start covariances; all entries", "why_tests_cant": "A wrong sign or block of the 15x15 error rate changes the weights of the initializer slightly and never shows as an error; orders of agreement are limits.", "anchors": ["ov_core/src/cpi/CpiV1.cpp:222-307", "ov_core/src/cpi/CpiBase.h:49-63"]}
{"id": "C104", "title": "Configuration parser: sources, flag, exits", "statement": "Whatever the files and ROS parameters are: if loading ends with the success flag up and a main file was opened, every required setting of the main file, of each camera's section and of the IMU's section was given; the flag never rises again and changes no value; a complete, well typed configuration is loaded with the flag up and with the stated values. A ROS parameter wins over the file, the file over the default; a boolean is read from exactly the eight texts, with an optional comment; relative files are looked for in the directory of the main file; a missing IMU file ends the program. Refuted: that a main file without a slash in its path finds its neighbours, that an empty matrix lowers the flag, and that the flag means anything was read when the main file is absent.", "quantifier": "all files, ROS parameters, node trees, OpenCV conversions (faithful on well typed nodes), numbers of cameras and start flags", "why_tests_cant": "Test configurations are complete; which omissions go unnoticed can only be enumerated over all files.", "anchors": ["ov_core/src/utils/opencv_yaml_parse.h:103", "ov_core/src/utils/opencv_yaml_parse.h:122-275", "ov_core/src/utils/opencv_yaml_parse.h:336-618", "ov_msckf/src/core/VioManagerOptions.h:62-71"]}
{"id": "C105", "title": "Cameras of the configuration", "statement": "For every successfully loaded configuration, the camera entry i of the filter is the camera of the file: its model, its size (halved, rounded towards zero, if cameras are downsampled), its pixels (halved likewise, for every ray and both distortion models), and its stored pose is the inverse of the camera-to-IMU transform, whether that was written as T_imu_cam or as T_cam_imu. There are entries for 0..n-1 and no others, and the initializer gets the same cameras, gravity and number. Masks have the size of the loaded camera. Refuted: that the mask has the size of the tracked image; with downsampling the mask that passes the check is halved a second time.", "quantifier": "all files, cameras, rays, poses, resolutions, with and without downsampling", "why_tests_cant": "Both ways to write the pose and both resolutions have to agree for every value; the shipped configurations use neither masks nor downsampling together.", "anchors": ["ov_msckf/src/core/VioManagerOptions.h:228-303", "ov_msckf/src/core/VioManagerOptions.h:354-362", "ov_init/src/init/InertialInitializerOptions.h:260-327", "ov_msckf/src/core/VioManager.cpp:267-278"]}
{"id": "C106", "title": "IMU intrinsics of the configuration", "statement": "If the file describes the sensor by invertible triangular scale matrices (lower for kalibr, upper for rpng), rotations and a gravity sensitivity, then with the loaded intrinsics the propagator's correction of the sensor's readings returns the true angular velocity and specific force. An unknown model, or the model 'calibrated' together with a requested calibration, ends the program. Refuted: that this holds for every invertible scale matrix; entries off the triangle are dropped without a message.", "quantifier": "all files, scale matrices, rotations, sensitivities, biases, rates and forces", "why_tests_cant": "Shipped configurations have identity intrinsics, where every transposition or inversion error is invisible.", "anchors": ["ov_msckf/src/core/VioManagerOptions.h:305-351", "ov_msckf/src/state/StateOptions.h:118-157", "ov_msckf/src/state/Propagator.cpp:402-431"]}
{"id": "C107", "title": "Sequential landmark update ends and is complete", "statement": "With a positive max_slam_in_update the loop of sequential landmark updates ends, whatever the updates do, and equals one update for each piece of the list cut into pieces of that size: every landmark is handed to exactly one update, in order. Refuted for the values the options also accept: with zero the loop never ends, a negative value forms an iterator before the first element.", "quantifier": "all landmark lists, states, databases, batch sizes and update outcomes", "why_tests_cant": "Termination and the order of batches for every list and batch size; the shipped configurations use one size.", "anchors": ["ov_msckf/src/core/VioManager.cpp:535-549", "ov_msckf/src/state/StateOptions.h:73-74"]}
{"id": "C108", "title": "Text files mean what their lines say", "statement": "For every text: the trajectory readers return, in order, the time and pose of each line that does not start with # and has at least eight words, with both symmetric covariances from lines of twenty words; a file without such a line, or with covariances on some lines only, ends the program. The ASL reader gives seconds and reorders the quaternion; the simulation reader accepts exactly files with rows of one length; the simulator's trajectory consists of the first eight numbers of each long enough line. The timing reader is defined exactly for files without rows shorter than four. Refuted: that every file is either read or rejected; an empty line is read out of range by both timing readers.", "quantifier": "all texts (character by character), all functions from fields to numbers", "why_tests_cant": "Comments, repeated blanks, empty and short lines, a missing last newline can occur anywhere in a file of any length.", "anchors": ["ov_eval/src/utils/Loader.cpp:26-386", "ov_core/src/utils/dataset_reader.h:177-235"]}
{"id": "C109", "title": "Groundtruth lookup", "statement": "The loaded groundtruth is ordered by time, holds for each time the first line with that time, and a line with more than 17 fields ends the program. A lookup answers exactly when some state is within a tenth of a second, with the state nearest in time (the older of two), the quaternion reordered to x y z w, and everything else unchanged. Refuted: that a file in the wrong format ends the program; a short or empty line becomes a state filled up with zeros, whose quaternion is no rotation.", "quantifier": "all texts, all functions from fields to numbers, all query times", "why_tests_cant": "All orders of lines, duplicated times, ties and gaps.", "anchors": ["ov_core/src/utils/dataset_reader.h:62-105", "ov_core/src/utils/dataset_reader.h:114-170"]}
{"id": "C110", "title": "Errors along the axes, normalized squared errors, planar errors", "statement": "For every pair of loaded trajectories with unit quaternions: calculate_error yields one row per pose with the position difference, the rotation between estimate and aligned groundtruth in the axes of the world (twice the sine of half the angle), and roll-pitch-yaw differences within half a turn that lead from the angles of the estimate to those of the groundtruth; its loops end for every number. Bounds are there for all rows or none, and are three standard deviations of the covariance carried to the world frame or, through the true derivative of roll-pitch-yaw, to the angles. calculate_nees yields the squared errors in the metric of the covariance, never negative for a positive definite one and zero only without error, and leaves its arguments alone without covariances. The planar errors are the distance in the ground plane and the heading difference. Refuted: that the rotation error along the axes is the angle.", "quantifier": "all trajectories, alignments, covariances, angles, and numbers of passes", "why_tests_cant": "Wrap-around, frames and signs of the errors and covariances for every attitude, including the derivative of the angles.", "anchors": ["ov_eval/src/calc/ResultTrajectory.cpp:111-138", "ov_eval/src/calc/ResultTrajectory.cpp:244-290", "ov_eval/src/calc/ResultTrajectory.cpp:292-400"]}
{"id": "C111", "title": "Simulation files: what is written is what is plotted", "statement": "For every run of a simulation, with any number of cameras and any calibration options: the three files written by sim_save_total_state_to_file are read back number by number by the evaluation, and the columns it takes are those of the quantities plotted: truth minus estimate for position, velocity and biases, estimate minus truth for time offset, camera and IMU calibration, the rotation between estimate and truth for orientations, each with three times the standard deviation of exactly that variable. Frames are shown up to the first one beyond the maximum time, and nothing at all if a shown frame has a zero deviation for the calibration. Refuted: that the writer stays inside the covariance (a rotation has three error states, four are written); under the KALIBR model the deviation of the next variable is stored as that of the accelerometer rotation, which is not drawn.", "quantifier": "all states, truths, covariances, numbers of cameras and frames, options, maximum times, and all texts of numbers", "why_tests_cant": "Two programs agree on about a hundred column numbers that depend on the number of cameras and the options.", "anchors": ["ov_msckf/src/ros/ROSVisualizerHelper.cpp:154-401", "ov_eval/src/calc/ResultSimulation.cpp:26-106", "ov_eval/src/calc/ResultSimulation.cpp:204-231", "ov_eval/src/calc/ResultSimulation.cpp:280-328", "ov_eval/src/calc/ResultSimulation.cpp:390-445", "ov_eval/src/calc/ResultSimulation.cpp:502-586"]}
{"id": "C112", "title": "Consecutive propagations integrate adjoining stretches of the IMU clock", "statement": "Whatever is fed, queried, invalidated or estimated between propagations, also when an update changes the estimate of the camera to IMU clock offset: each propagation starts at exactly the IMU time at which the one before ended, so no inertial reading is used twice or skipped, and the total duration integrated over a run is the IMU time between its ends. Refuted: that this also holds across a zero velocity update, which moves the time of the state but not the offset remembered by the propagator.", "quantifier": "all sequences of calls, buffers, states, clock offsets and changes of the state that leave its time alone", "why_tests_cant": "The offset can change in any way between any two propagations; a test sees a few milliseconds of drift at most.", "anchors": ["ov_msckf/src/state/Propagator.cpp:33-63", "ov_msckf/src/state/Propagator.cpp:132-138", "ov_msckf/src/update/UpdaterZeroVelocity.cpp:78-100", "ov_msckf/src/update/UpdaterZeroVelocity.cpp:277-277"]}
